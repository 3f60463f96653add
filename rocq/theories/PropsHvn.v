(** Property theorems: whole iterations and runs of HVN. *)
From Coq Require Import List Arith Bool Reals ZArith Lia Lra Permutation Sorted.
From Verif Require Import Num Exn ListAux HVModel HVSpec HVTheory HVTop HVHom StateModel NewtonModel NewtonPop RefModel HVXModel StepModel StepSpec ShiftModel IterModel IterSpec HvnModel HvnSpec HvnMain HvnRun HvnHist HvnOpt HvnEven HvnTop HvnEx.
Import ListNotations.
Open Scope R_scope.

(** * C120: what a run leaves behind *)
Theorem C120_population : forall V X0 l j o, hvn_posed V -> hvn_input V X0 -> hvn_objects V X0 l -> nth_error l j = Some o ->
  (1 <= length (vprimal V (n_state o)) <= length X0)%nat /\ (forall x, In x (vprimal V (n_state o)) -> length x = c_nvar (v_prob V)) /\
  s_Y (n_state o) = map (cb_point (c_func (v_prob V))) (vprimal V (n_state o)) /\ n_iter o = j.
Proof. intros V X0 l j o P. apply objects_population. exact P. Qed.
Print Assumptions C120_population.
Theorem C120_iteration : forall V X0 l j o o', hvn_posed V -> hvn_input V X0 -> hvn_objects V X0 l -> nth_error l j = Some o -> nth_error l (S j) = Some o' ->
  exists idx, thinned (vprimal V (n_state o)) idx /\ length (vprimal V (n_state o')) = length idx /\ length (n_step o') = length idx /\ length (n_size o') = length idx /\
    n_jac (n_state o') = (n_jac (n_state o) + length idx)%nat /\
    forall i k, (i < length idx)%nat -> (k < c_nvar (v_prob V))%nat ->
      nth k (nth i (vprimal V (n_state o')) []) 0 = nth k (nth (nth i idx 0%nat) (vprimal V (n_state o)) []) 0 + nth i (n_size o') 0 * nth k (nth i (n_step o') []) 0.
Proof. intros V X0 l j o o' P. apply objects_thinned. exact P. Qed.
Print Assumptions C120_iteration.
Theorem C120_history : forall V X0 l j o, hvn_objects V X0 l -> nth_error l j = Some o ->
  g_X o = map (fun q => vprimal V (n_state q)) (firstn j (tl l)) /\ g_Y o = map (fun q => s_Y (n_state q)) (firstn j (tl l)) /\
  g_val o = map n_value (firstn j (tl l)) /\ g_R o = map (fun q => median (map euclid (n_R q))) (firstn j (tl l)).
Proof. intros. eapply objects_history; eauto. Qed.
Print Assumptions C120_history.
Theorem C120_run : forall V X0 o0 fuel z r, hvn_init V X0 = Ok o0 -> hvn_run V fuel (Finite z) o0 = Ok r ->
  exists l, hvn_objects V X0 (o0 :: l) /\ o_state r = last l o0 /\ o_hist r = l /\ length l = Z.to_nat z /\ o_iter r = length l.
Proof. exact run_objects. Qed.
Print Assumptions C120_run.
(** four points of a problem with an equality constraint, two of them equal, for any number of iterations *)
Example C120_example : forall n, exists l, hvn_posed (VE false) /\ hvn_input (VE false) XE /\ hvn_objects (VE false) XE l /\ length l = S n.
Proof. intros n. destruct (totalE n) as (l & H & L). exists l. split. apply posedE. split. apply inputE. auto. Qed.
Example C120_run_example : exists o r, hvn_init (VE false) XE = Ok o /\ hvn_run (VE false) 7 (Finite 5) o = Ok r.
Proof. apply run_returns. apply posedE. apply inputE. apply defined. apply posedE. apply stable_argsort_ok. left. reflexivity. reflexivity. lia. Qed.

(** * C121: the box *)
Theorem C121_in_box : forall V X0 l o x, hvn_posed V -> hvn_input V X0 -> (forall k, (k < c_nvar (v_prob V))%nat -> nth k (v_xl V) 0 <= nth k (v_xu V) 0) -> v_limit V = true ->
  hvn_objects V X0 l -> In o l -> In x (vprimal V (n_state o)) -> IterSpec.in_box (v_xl V) (v_xu V) x.
Proof.
  intros V X0 l o x P HI Hb HL HO Ho Hx. apply (boxed_primal V P o); auto. apply (objects_sound V P X0 l HI HO); auto.
  apply In_nth_error in Ho as [j Hj]. apply (objects_boxed V P X0 l HI Hb HL HO j o Hj).
Qed.
Print Assumptions C121_in_box.
(** the distance of a coordinate to either bound is at least three quarters of what it was *)
Theorem C121_margin : forall V X0 l j o o', hvn_posed V -> hvn_input V X0 -> (forall k, (k < c_nvar (v_prob V))%nat -> nth k (v_xl V) 0 <= nth k (v_xu V) 0) -> v_limit V = true ->
  hvn_objects V X0 l -> nth_error l j = Some o -> nth_error l (S j) = Some o' ->
  exists idx, thinned (vprimal V (n_state o)) idx /\ length (vprimal V (n_state o')) = length idx /\
    forall i k, (i < length idx)%nat -> (k < c_nvar (v_prob V))%nat ->
      let x := nth k (nth (nth i idx 0%nat) (vprimal V (n_state o)) []) 0 in let x' := nth k (nth i (vprimal V (n_state o')) []) 0 in
      3 / 4 * (x - nth k (v_xl V) 0) <= x' - nth k (v_xl V) 0 /\ 3 / 4 * (nth k (v_xu V) 0 - x) <= nth k (v_xu V) 0 - x'.
Proof. intros V X0 l j o o' P. apply objects_box_margin. exact P. Qed.
Print Assumptions C121_margin.
Theorem C121_stall : forall V X0 l j o o', hvn_posed V -> hvn_input V X0 -> hvn_objects V X0 l -> nth_error l j = Some o -> nth_error l (S j) = Some o' -> v_limit V = true ->
  exists idx, thinned (vprimal V (n_state o)) idx /\ length (vprimal V (n_state o')) = length idx /\
    forall m i i' k, (i < length idx)%nat -> (i' < length idx)%nat -> (k < c_nvar (v_prob V))%nat ->
      in_layer (rows_at false (is_feasible (v_prob V) (n_state o)) idx) (rows_at [] (s_Y (n_state o)) idx) i m ->
      in_layer (rows_at false (is_feasible (v_prob V) (n_state o)) idx) (rows_at [] (s_Y (n_state o)) idx) i' m ->
      let x := nth k (nth (nth i idx 0%nat) (vprimal V (n_state o)) []) 0 in let t := nth k (nth i (n_step o') []) 0 in
      x = nth k (v_xl V) 0 /\ t < 0 \/ x = nth k (v_xu V) 0 /\ 0 < t ->
      nth i' (vprimal V (n_state o')) [] = nth (nth i' idx 0%nat) (vprimal V (n_state o)) [].
Proof. intros V X0 l j o o' P. apply objects_stall. exact P. Qed.
Print Assumptions C121_stall.
Theorem C121_still : forall V X0 l j o o' j' p, hvn_posed V -> hvn_input V X0 -> hvn_objects V X0 l -> nth_error l j = Some o -> nth_error l (S j) = Some o' ->
  s_X (n_state o') = s_X (n_state o) -> (j < j')%nat -> nth_error l j' = Some p -> s_X (n_state p) = s_X (n_state o).
Proof. intros V X0 l j o o' j' p P HI HO H1 H2 HX Hj Hp. apply (objects_still V P X0 l j o o' HI HO H1 H2 HX j' p Hj Hp). Qed.
Print Assumptions C121_still.
Theorem C121_stuck : forall V p0 p1 q0 q1 X0 n, hvn_posed V -> line_problem V p0 p1 q0 q1 -> argsort_ok (v_argsort V) -> v_pre V = false -> v_limit V = true -> hvn_input V X0 ->
  (forall x, In x X0 -> nth 0 (v_xl V) 0 <= nth 0 x 0 <= nth 0 (v_xu V) 0) -> (forall i j, (i < j < length X0)%nat -> / 10 ^ 8 < dist2 (nth i X0 []) (nth j X0 [])) ->
  (exists x, In x X0 /\ nth 0 x 0 = nth 0 (v_xu V) 0) -> nth 0 (v_xu V) 0 < even_point V p0 p1 q0 q1 (length X0) 0 ->
  exists l, hvn_objects V X0 l /\ length l = S n /\ forall o, In o l -> Permutation (vprimal V (n_state o)) X0.
Proof. intros V p0 p1 q0 q1 X0 n P L A Hp HL. apply (objects_stuck V P p0 p1 q0 q1 L Hp X0 n A HL). Qed.
Print Assumptions C121_stuck.
(** f(x) = (x, 1 - x) on [0, 1], reference point (4, 1), points 0.2 and 1: HVN with [limit_max_step_size]
    stops for ever at 3.16, and 0.5 and 1 have 3.25 *)
Lemma stuckL n : exists l, hvn_objects (VL 4 true) [[0.2]; [1]] l /\ length l = S n /\ forall o, In o l -> Permutation (vprimal (VL 4 true) (n_state o)) [[0.2]; [1]].
Proof.
  apply (C121_stuck (VL 4 true) 0 1 1 1). apply posedL. apply lineL; lra. apply argsortL. reflexivity. reflexivity. apply inputL. discriminate. intros x [<-|[<-|[]]]; reflexivity.
  - cbn. intros x [<-|[<-|[]]]; cbn; lra.
  - intros i j Hij. cbn in Hij. assert (i = 0%nat) by lia. assert (j = 1%nat) by lia. subst. cbn [nth]. rewrite dist2_one, Rabs_left by lra. lra.
  - exists [1]. split; [right; left; auto|reflexivity].
  - rewrite evenL. cbn. lra.
Qed.
Theorem C121_stuck_refuted : exists V X0 v v', hvn_posed V /\ argsort_ok (v_argsort V) /\ v_limit V = true /\ hvn_input V X0 /\ v < v' /\
  (exists X, length X = length X0 /\ (forall x, In x X -> IterSpec.in_box (v_xl V) (v_xu V) x) /\ is_hypervolume (map (cb_point (c_func (v_prob V))) X) (v_ref V) v') /\
  forall n, exists l, hvn_objects V X0 l /\ length l = S n /\ forall o, In o l -> is_hypervolume (s_Y (n_state o)) (v_ref V) v.
Proof.
  exists (VL 4 true), [[0.2]; [1]], 3.16, 3.25. split. apply posedL. split. apply argsortL. split. reflexivity. split. apply inputL. discriminate. intros x [<-|[<-|[]]]; reflexivity. split. lra.
  split. { exists [[0.5]; [1]]. split. reflexivity. split. { intros x [<-|[<-|[]]]; (split; [reflexivity|split; [reflexivity|]]); intros [|k] Hk; cbn in *; try lra; lia. }
    pose proof (hvL 4 [0.5; 1] ltac:(lra) ltac:(repeat constructor; lra) ltac:(intros z [<-|[<-|[]]]; lra)) as H. cbn [map gain hd] in H. cbn. replace 3.25 with ((1 - 0.5) * (0.5 - 0) + ((4 - 1) * (1 - 0) + 0)) by lra. exact H. }
  intros n. destruct (stuckL n) as (l & HO & HL & HP). exists l. split; auto. split; auto. intros o Ho.
  assert (HI : hvn_input (VL 4 true) [[0.2]; [1]]) by (apply inputL; [discriminate|intros x [<-|[<-|[]]]; reflexivity]).
  destruct (In_nth_error _ _ Ho) as [j Hj]. destruct (C120_population _ _ _ _ _ (posedL 4 true) HI HO Hj) as (_ & _ & EY & _).
  pose proof (hvL 4 [0.2; 1] ltac:(lra) ltac:(repeat constructor; lra) ltac:(intros z [<-|[<-|[]]]; lra)) as H. cbn [map gain hd] in H.
  assert (PY : Permutation (s_Y (n_state o)) [[0.2; 1 - 0.2]; [1; 1 - 1]]) by (rewrite EY, (HP o Ho); reflexivity).
  assert (LY : forall y, In y (s_Y (n_state o)) -> length y = length [4; 1]) by (intros y Hy; apply (Permutation_in _ PY) in Hy; destruct Hy as [<-|[<-|[]]]; reflexivity).
  assert (LZ : forall y, In y [[0.2; 1 - 0.2]; [1; 1 - 1]] -> length y = length [4; 1]) by (intros y [<-|[<-|[]]]; reflexivity).
  pose proof (hv_is_hypervolume _ _ LY) as HY. rewrite (hv_perm _ _ _ _ (Permutation_map co PY)) in HY.
  rewrite (is_hypervolume_unique _ _ _ _ LZ (hv_is_hypervolume _ _ LZ) H) in HY. change (v_ref (VL 4 true)) with [4; 1]. replace 3.16 with ((1 - 0.2) * (0.2 - 0) + ((4 - 1) * (1 - 0) + 0)) by lra. exact HY.
Qed.
Print Assumptions C121_stuck_refuted.
(** without [limit_max_step_size] (the default) the points leave the box: 0.5 moves to 2 *)
Theorem C121_refuted : exists V X0 l o x, hvn_posed V /\ argsort_ok (v_argsort V) /\ hvn_input V X0 /\ (forall k, (k < c_nvar (v_prob V))%nat -> nth k (v_xl V) 0 <= nth k (v_xu V) 0) /\
  v_limit V = false /\ hvn_objects V X0 l /\ In o l /\ In x (vprimal V (n_state o)) /\ ~ IterSpec.in_box (v_xl V) (v_xu V) x.
Proof.
  set (V := VL 4 false). assert (HI : hvn_input V [[0.5]]) by (apply inputL; [discriminate|intros x [<-|[]]; reflexivity]).
  destruct (objects_total V (posedL 4 false) [[0.5]] 1 HI) as (l & HO & HL). { apply defined. apply posedL. apply argsortL. left. reflexivity. } reflexivity.
  destruct l as [|o0 [|o1 [|? ?]]]; try discriminate.
  destruct (objects_even V (posedL 4 false) 0 1 1 1 (lineL 4 false ltac:(lra)) eq_refl _ _ 0 o0 o1 HI HO eq_refl eq_refl eq_refl) as (idx & sg & _ & _ & He & _).
  destruct (C120_population _ _ _ 1 o1 (posedL 4 false) HI HO eq_refl) as ([N1 N2] & _). assert (NN : length (vprimal V (n_state o1)) = 1%nat) by (apply Nat.le_antisymm; [exact N2|exact N1]).
  assert (HE : evenly_spaced V 0 1 1 1 (vprimal V (n_state o1))) by (apply evenly_iff; eauto). unfold evenly_spaced in HE. rewrite NN in HE. cbn [seq map] in HE. apply Permutation_sym, Permutation_length_1_inv in HE. unfold V in HE at 2. rewrite evenL in HE.
  exists V, [[0.5]], [o0; o1], o1, [INR 1 * (4 / INR 2)]. split. apply posedL. split. apply argsortL. split; auto. split. { intros [|k] Hk; cbn in *; [lra|lia]. } split. reflexivity. split; auto. split. simpl; auto.
  split. rewrite HE. left. reflexivity. intros (_ & _ & Hb). specialize (Hb 0%nat ltac:(cbn; lia)). cbn in Hb. lra.
Qed.
Print Assumptions C121_refuted.
Example C121_example : exists l, hvn_posed (VL 4 true) /\ hvn_input (VL 4 true) [[0.2]; [1]] /\ (forall k, (k < 1)%nat -> nth k [0] 0 <= nth k [1] 0) /\ hvn_objects (VL 4 true) [[0.2]; [1]] l /\ length l = 6%nat.
Proof.
  destruct (stuckL 5) as (l & H & HL & _). exists l. split. apply posedL. split. apply inputL. discriminate. intros x [<-|[<-|[]]]; reflexivity. split; auto. intros [|k] Hk; cbn in *; [lra|lia].
Qed.

(** * C122: the values in the history *)
Theorem C122_value : forall V X0 l j o o', hvn_posed V -> hvn_input V X0 -> hvn_objects V X0 l -> nth_error l j = Some o -> nth_error l (S j) = Some o' -> argsort_ok (v_argsort V) ->
  exists idx, thinned (vprimal V (n_state o)) idx /\ length (vprimal V (n_state o')) = length idx /\
    (v_nobj V = 2%nat \/ hv_input (v_minf V) (rows_at [] (s_Y (n_state o)) idx) (v_ref V) ->
     exists v, n_value o' = Some v /\ is_hypervolume (rows_at [] (s_Y (n_state o)) idx) (v_ref V) v).
Proof. intros V X0 l j o o' P. apply objects_value. exact P. Qed.
Print Assumptions C122_value.
Example C122_example : exists l, hvn_posed (VE false) /\ hvn_input (VE false) XE /\ hvn_objects (VE false) XE l /\ length l = 2%nat /\ argsort_ok (v_argsort (VE false)) /\ v_nobj (VE false) = 2%nat.
Proof. destruct (totalE 1) as (l & H & L). exists l. split. apply posedE. split. apply inputE. split; auto. split; auto. split. apply stable_argsort_ok. reflexivity. Qed.
(** the value stored with a population is not its hypervolume: 3/16 with the population {1/2}, which has 1/4 *)
Theorem C122_refuted : exists V X0 l j o v w, hvn_posed V /\ argsort_ok (v_argsort V) /\ hvn_input V X0 /\ hvn_objects V X0 l /\ In o l /\
  nth_error (g_val o) j = Some (Some v) /\ (exists Y, nth_error (g_Y o) j = Some Y /\ is_hypervolume Y (v_ref V) w) /\ v <> w.
Proof.
  set (V := VL 1 false). assert (HI : hvn_input V [[1 / 4]]) by (apply inputL; [discriminate|intros x [<-|[]]; reflexivity]).
  destruct (objects_total V (posedL 1 false) [[1 / 4]] 1 HI) as (l & HO & HL). { apply defined. apply posedL. apply argsortL. left. reflexivity. } reflexivity.
  destruct l as [|o0 [|o1 [|? ?]]]; try discriminate. destruct (initL 1 false (1 / 4) o0 ltac:(lra) (proj1 HO)) as [EX0 EY0].
  destruct (objects_optimal V (posedL 1 false) 0 1 1 1 (lineL 1 false ltac:(lra)) eq_refl _ _ 0 o0 o1 HI HO eq_refl eq_refl eq_refl) as [HW _].
  destruct (C120_population _ _ _ 1 o1 (posedL 1 false) HI HO eq_refl) as ([N1 N2] & _). assert (NN : length (vprimal V (n_state o1)) = 1%nat) by (apply Nat.le_antisymm; [exact N2|exact N1]). rewrite NN in HW.
  destruct (C122_value _ _ _ 0 o0 o1 (posedL 1 false) HI HO eq_refl eq_refl (argsortL 1 false)) as (idx & (T1 & T2 & _) & Ln & Hv). destruct (Hv (or_introl eq_refl)) as (v & Ev & Hhv). clear Hv. fold V in EX0.
  assert (Ei : idx = [0%nat]). { fold V in Ln, T2. rewrite NN in Ln. destruct idx as [|i [|? ?]]; try discriminate. specialize (T2 i (or_introl eq_refl)). rewrite EX0 in T2. cbn in T2. f_equal. lia. }
  rewrite Ei, EY0 in Hhv. cbn in Hhv.
  pose proof (hvL 1 [1 / 4] ltac:(lra) ltac:(repeat constructor) ltac:(intros z [<-|[]]; lra)) as H. cbn [map gain hd] in H.
  assert (Ev' : v = (1 - 1 / 4) * (1 / 4 - 0) + 0) by (apply (is_hypervolume_unique [[1 / 4; 1 - 1 / 4]] [1; 1]); auto; intros y [<-|[]]; reflexivity).
  destruct (C120_history _ _ _ 1 o1 HO eq_refl) as (_ & GY & GV & _). cbn [tl firstn map] in GY, GV.
  exists V, [[1 / 4]], [o0; o1], 0%nat, o1, v, (1 / 4). split. apply posedL. split. apply argsortL. split; auto. split; auto. split. simpl; auto. split. rewrite GV, Ev. reflexivity. split; [|lra].
  exists (s_Y (n_state o1)). split. rewrite GY. reflexivity. eapply eq_ind; [exact HW|]. cbn. lra.
Qed.
Print Assumptions C122_refuted.

(** * C123: errors *)
Theorem C123_total : forall V X0 n, hvn_posed V -> argsort_ok (v_argsort V) -> two_or_three V -> hvn_input V X0 -> v_limit V = false -> exists l, hvn_objects V X0 l /\ length l = S n.
Proof. intros V X0 n P A T HI HL. apply objects_total; auto. apply defined; auto. Qed.
Print Assumptions C123_total.
Theorem C123_run : forall V X0 z fuel, hvn_posed V -> argsort_ok (v_argsort V) -> two_or_three V -> hvn_input V X0 -> v_limit V = false -> (z <= Z.of_nat fuel)%Z ->
  exists o r, hvn_init V X0 = Ok o /\ hvn_run V fuel (Finite z) o = Ok r.
Proof. intros V X0 z fuel P A T HI HL. apply run_returns; auto. apply defined; auto. Qed.
Print Assumptions C123_run.
Theorem C123_error : forall V X0 l o e, hvn_posed V -> argsort_ok (v_argsort V) -> two_or_three V -> hvn_input V X0 -> hvn_objects V X0 l -> In o l -> hvn_iterate V o = Exn e ->
  v_limit V = true /\ e = ValueError.
Proof. intros V X0 l o e P A T HI HO. apply (objects_error V P X0 l o e HI HO). apply defined; auto. Qed.
Print Assumptions C123_error.
Example C123_example : hvn_posed V3 /\ argsort_ok (v_argsort V3) /\ two_or_three V3 /\ hvn_input V3 [[0.1; 0.9; 0.5]; [0.9; 0.1; 0.5]; [0.2; 0.2; 0.6]] /\ v_limit V3 = false.
Proof. split. apply posed3. split. apply stable_argsort_ok. split. apply three3. split; [|reflexivity]. split. cbn. lia. intros x [<-|[<-|[<-|[]]]]; reflexivity. Qed.
(** with [limit_max_step_size] an iteration at the optimum raises *)
Theorem C123_refuted : exists V X0 o, hvn_posed V /\ argsort_ok (v_argsort V) /\ two_or_three V /\ hvn_input V X0 /\ hvn_objects V X0 [o] /\ hvn_iterate V o = Exn ValueError.
Proof.
  set (V := VL 1 true). assert (HI : hvn_input V [[1 / 2]]) by (apply inputL; [discriminate|intros x [<-|[]]; reflexivity]).
  destruct (init_total V (posedL 1 true) _ HI) as (o & E). exists V, [[1 / 2]], o. split. apply posedL. split. apply argsortL. split. left. reflexivity. split; auto. split. split; simpl; auto.
  destruct (initL 1 true (1 / 2) o ltac:(lra) E) as [EX _]. fold V in EX. assert (HE : evenly_spaced V 0 1 1 1 (vprimal V (n_state o))).
  { unfold evenly_spaced. rewrite EX. cbn [length seq map]. apply Permutation_refl'. do 2 f_equal. unfold V. rewrite evenL. cbn. lra. }
  apply evenly_iff in HE as (sg & He). apply (even_raises V (posedL 1 true) 0 1 1 1 (lineL 1 true ltac:(lra)) eq_refl o sg); auto. apply (init_sound V (posedL 1 true) [[1 / 2]] o HI E). apply argsortL.
  change (/ 10 ^ 8 < spacing V 0 1 1 1 (length (vprimal V (n_state o)))). rewrite EX. unfold V. rewrite spacingL. cbn. lra.
Qed.
Print Assumptions C123_refuted.

(** * C124: the line search *)
Theorem C124_merit : forall V X0 l j o o', hvn_posed V -> hvn_input V X0 -> hvn_objects V X0 l -> nth_error l j = Some o -> nth_error l (S j) = Some o' ->
  exists idx, thinned (vprimal V (n_state o)) idx /\ length (vprimal V (n_state o')) = length idx /\
    forall i, (i < length idx)%nat -> exists m ll, In i ll /\ NoDup ll /\
      (forall i', In i' ll <-> (i' < length idx)%nat /\ in_layer (rows_at false (is_feasible (v_prob V) (n_state o)) idx) (rows_at [] (s_Y (n_state o)) idx) i' m) /\
      let X := rows_at [] (rows_at [] (s_X (n_state o)) idx) ll in let X' := rows_at [] (s_X (n_state o')) ll in let st := rows_at [] (n_step o') ll in let a := nth i (n_size o') 0 in
      (forall i', In i' ll -> nth i' (n_size o') 0 = a) /\ moved_by a X st X' /\
      exists t r0 mx k, evaluated_at V t X /\ residual_norm V t r0 /\ 0 <= mx <= 1 /\ (v_limit V = false -> mx = 1) /\ (k <= 6)%nat /\ a = mx * (/ 2) ^ k /\
        (k = 6%nat \/ Rabs (r0 - eps_mach) <= / 10 ^ 8 + / 10 ^ 5 * eps_mach \/
         exists t' r', evaluated_at V t' X' /\ residual_norm V t' r' /\ r' <= (1 - / 10 ^ 5 * a) * r0).
Proof. intros V X0 l j o o' P. apply objects_merit. exact P. Qed.
Print Assumptions C124_merit.
Example C124_example : exists l, hvn_posed (VE false) /\ hvn_input (VE false) XE /\ hvn_objects (VE false) XE l /\ length l = 3%nat.
Proof. destruct (totalE 2) as (l & H & L). exists l. split. apply posedE. split. apply inputE. auto. Qed.

(** * C125: on a line, [limit_max_step_size] raises at the optimum and nowhere else *)
Theorem C125_raises : forall V p0 p1 q0 q1 X0 l o, hvn_posed V -> line_problem V p0 p1 q0 q1 -> argsort_ok (v_argsort V) -> v_pre V = false -> v_limit V = true -> hvn_input V X0 -> hvn_objects V X0 l -> In o l ->
  evenly_spaced V p0 p1 q0 q1 (vprimal V (n_state o)) -> / 10 ^ 8 < spacing V p0 p1 q0 q1 (length (vprimal V (n_state o))) -> hvn_iterate V o = Exn ValueError.
Proof.
  intros V p0 p1 q0 q1 X0 l o P L A Hp HL HI HO Ho He Hs. apply evenly_iff in He as (sg & He). apply (even_raises V P p0 p1 q0 q1 L Hp o sg); auto. apply (objects_sound V P X0 l HI HO); auto.
Qed.
Print Assumptions C125_raises.
Theorem C125_only : forall V p0 p1 q0 q1 X0 l o e, hvn_posed V -> line_problem V p0 p1 q0 q1 -> argsort_ok (v_argsort V) -> v_pre V = false -> hvn_input V X0 -> hvn_objects V X0 l -> In o l ->
  hvn_iterate V o = Exn e -> exists idx, thinned (vprimal V (n_state o)) idx /\ evenly_spaced V p0 p1 q0 q1 (rows_at [] (vprimal V (n_state o)) idx).
Proof.
  intros V p0 p1 q0 q1 X0 l o e P L A Hp HI HO Ho E. destruct (line_error V P p0 p1 q0 q1 L Hp o e (objects_sound V P X0 l HI HO o Ho) A E) as (idx & sg & T & _ & He). exists idx. split; auto. apply evenly_iff. eauto.
Qed.
Print Assumptions C125_only.
Example C125_example : exists o, hvn_posed (VL 1 true) /\ line_problem (VL 1 true) 0 1 1 1 /\ hvn_input (VL 1 true) [[1 / 2]] /\ hvn_objects (VL 1 true) [[1 / 2]] [o] /\ evenly_spaced (VL 1 true) 0 1 1 1 (vprimal (VL 1 true) (n_state o)) /\
  / 10 ^ 8 < spacing (VL 1 true) 0 1 1 1 (length (vprimal (VL 1 true) (n_state o))).
Proof.
  set (V := VL 1 true). assert (HI : hvn_input V [[1 / 2]]) by (apply inputL; [discriminate|intros x [<-|[]]; reflexivity]).
  destruct (init_total V (posedL 1 true) _ HI) as (o & E). exists o. split. apply posedL. split. apply lineL; lra. split; auto. split. split; simpl; auto.
  destruct (initL 1 true (1 / 2) o ltac:(lra) E) as [EX _]. fold V in EX. rewrite EX. split.
  - unfold evenly_spaced. cbn [length seq map]. apply Permutation_refl'. do 2 f_equal. unfold V. rewrite evenL. cbn. lra.
  - unfold V. rewrite spacingL. cbn. lra.
Qed.

(** * C126: on a line, one iteration leads to equally spaced points *)
Theorem C126_even : forall V p0 p1 q0 q1 X0 l j o o', hvn_posed V -> line_problem V p0 p1 q0 q1 -> v_pre V = false -> v_limit V = false -> hvn_input V X0 -> hvn_objects V X0 l -> nth_error l j = Some o -> nth_error l (S j) = Some o' ->
  exists idx sg, thinned (vprimal V (n_state o)) idx /\ length (vprimal V (n_state o')) = length idx /\ Permutation sg (seq 0 (length idx)) /\
    (forall u, (u < length idx)%nat -> nth (nth u sg 0%nat) (vprimal V (n_state o')) [] = [even_point V p0 p1 q0 q1 (length idx) u]) /\
    forall u u', (u < u')%nat -> (u' < length idx)%nat ->
      nth 0 (nth (nth (nth u sg 0%nat) idx 0%nat) (vprimal V (n_state o)) []) 0 < nth 0 (nth (nth (nth u' sg 0%nat) idx 0%nat) (vprimal V (n_state o)) []) 0.
Proof.
  intros V p0 p1 q0 q1 X0 l j o o' P L Hp HL HI HO H1 H2. destruct (objects_even V P p0 p1 q0 q1 L Hp X0 l j o o' HI HO H1 H2 HL) as (idx & sg & T & Ln & [He1 He2] & Hs). rewrite Ln in *.
  exists idx, sg. auto.
Qed.
Print Assumptions C126_even.
(** and the points stay there *)
Theorem C126_stay : forall V p0 p1 q0 q1 X0 l j o o', hvn_posed V -> line_problem V p0 p1 q0 q1 -> v_pre V = false -> v_limit V = false -> hvn_input V X0 -> hvn_objects V X0 l -> nth_error l j = Some o -> nth_error l (S j) = Some o' ->
  evenly_spaced V p0 p1 q0 q1 (vprimal V (n_state o)) -> / 10 ^ 8 < spacing V p0 p1 q0 q1 (length (vprimal V (n_state o))) -> Permutation (vprimal V (n_state o')) (vprimal V (n_state o)).
Proof.
  intros V p0 p1 q0 q1 X0 l j o o' P L Hp HL HI HO H1 H2 He Hs. apply evenly_iff in He as (sg & He). apply (objects_stay V P p0 p1 q0 q1 L Hp X0 l j o o' sg); auto.
Qed.
Print Assumptions C126_stay.
Lemma totalL X0 n : X0 <> [] -> (forall x, In x X0 -> length x = 1%nat) -> exists l, hvn_posed (VL 4 false) /\ line_problem (VL 4 false) 0 1 1 1 /\ hvn_input (VL 4 false) X0 /\ hvn_objects (VL 4 false) X0 l /\ length l = S n.
Proof.
  intros H1 H2. destruct (C123_total (VL 4 false) X0 n) as (l & HO & HL). apply posedL. apply argsortL. left; reflexivity. apply inputL; auto. reflexivity. exists l. split. apply posedL. split. apply lineL; lra. split. apply inputL; auto. auto.
Qed.
Example C126_example : exists l, hvn_posed (VL 4 false) /\ line_problem (VL 4 false) 0 1 1 1 /\ hvn_input (VL 4 false) [[0.1]; [0.2]; [0.9]] /\ hvn_objects (VL 4 false) [[0.1]; [0.2]; [0.9]] l /\ length l = 8%nat.
Proof. apply totalL. discriminate. intros x [<-|[<-|[<-|[]]]]; reflexivity. Qed.

(** * C127: on a line, the population after an iteration is optimal *)
Theorem C127_optimal : forall V p0 p1 q0 q1 X0 l j o o', hvn_posed V -> line_problem V p0 p1 q0 q1 -> v_pre V = false -> v_limit V = false -> hvn_input V X0 -> hvn_objects V X0 l -> nth_error l j = Some o -> nth_error l (S j) = Some o' ->
  let N := length (vprimal V (n_state o')) in let w := (nth 0 (v_ref V) 0 - p0) / q0 - (p1 - nth 1 (v_ref V) 0) / q1 in
  is_hypervolume (s_Y (n_state o')) (v_ref V) (q0 * q1 * (w * w / 2) * (INR N / INR (S N))) /\
  forall Z v, (length Z <= N)%nat -> (forall z, In z Z -> length z = 1%nat) -> is_hypervolume (map (cb_point (c_func (v_prob V))) Z) (v_ref V) v ->
    v <= q0 * q1 * (w * w / 2) * (INR N / INR (S N)).
Proof. intros V p0 p1 q0 q1 X0 l j o o' P L Hp HL HI HO H1 H2. exact (objects_optimal V P p0 p1 q0 q1 L Hp X0 l j o o' HI HO H1 H2 HL). Qed.
Print Assumptions C127_optimal.
Example C127_example : exists l, hvn_posed (VL 4 false) /\ line_problem (VL 4 false) 0 1 1 1 /\ hvn_input (VL 4 false) [[1]; [0.2]] /\ hvn_objects (VL 4 false) [[1]; [0.2]] l /\ length l = 2%nat.
Proof. apply totalL. discriminate. intros x [<-|[<-|[]]]; reflexivity. Qed.
