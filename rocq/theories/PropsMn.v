(** Property theorems: whole iterations and runs of MMDNewton. *)
From Coq Require Import List Arith Bool Reals ZArith Lia Lra Permutation.
From Verif Require Import Num Exn ListAux StateModel StateSpec NewtonModel NewtonPop RefModel RefSpec HVXModel HVXSpec IndSpec MMDModel MMDSpec MMDKern StepModel StepSpec ShiftModel ShiftSpec IterModel IterSpec IterProof IterEx IterEx2 HvnSpec MnModel MnSpec MnMain MnTop MnDyn MnEx.
Import ListNotations.
Open Scope R_scope.

(** * C128: what a run leaves behind *)
Theorem C128_population : forall M rs X0 l j o, mn_posed M -> mn_input M rs X0 -> mn_objects M rs X0 l -> nth_error l j = Some o ->
  length (primal_of (n_base M) (w_state o)) = length X0 /\ (forall x, In x (primal_of (n_base M) (w_state o)) -> length x = c_nvar (k_prob (n_base M))) /\
  s_Y (w_state o) = map (cb_point (c_func (k_prob (n_base M)))) (primal_of (n_base M) (w_state o)) /\ w_iter o = j.
Proof. intros M rs X0 l j o P. apply mobjects_population. exact P. Qed.
Print Assumptions C128_population.
Theorem C128_history : forall M rs X0 l j o, mn_objects M rs X0 l -> nth_error l j = Some o ->
  e_X o = map (fun q => primal_of (n_base M) (w_state q)) (firstn j (tl l)) /\ e_Y o = map (fun q => s_Y (w_state q)) (firstn j (tl l)) /\
  e_val o = map w_value (firstn j (tl l)) /\ e_R o = map (fun q => median (map euclid (w_R q))) (firstn j (tl l)).
Proof. intros. eapply mobjects_history; eauto. Qed.
Print Assumptions C128_history.
Theorem C128_run : forall M rs X0 o0 fuel z r, mn_init M rs X0 = Ok o0 -> mn_run M fuel (Finite z) o0 = Ok r ->
  exists l, mn_objects M rs X0 (o0 :: l) /\ o_state r = last l o0 /\ o_hist r = l /\ length l = Z.to_nat z /\ o_iter r = length l.
Proof. exact mrun_objects. Qed.
Print Assumptions C128_run.
(** two points of a problem with an equality constraint, for any number of iterations *)
Example C128_example : forall n, exists l, mn_posed (M2 1) /\ mn_input (M2 1) rs2 XC /\ mn_objects (M2 1) rs2 XC l /\ length l = S n.
Proof. intros n. destruct (mobjects_total (M2 1) (posed2 1) rs2 XC n (minC 1)) as (l & H & L). exists l. split. apply posed2. split. apply minC. auto. Qed.
Example C128_run_example : exists o r, mn_init (M2 1) rs2 XC = Ok o /\ mn_run (M2 1) 7 (Finite 5) o = Ok r.
Proof. apply mrun_returns. apply posed2. apply minC. lia. Qed.

(** * C129: the recorded value of the discrepancy *)
(** the value recorded by iteration [j + 1] is that of the population before it *)
Theorem C129_previous : forall M rs X0 l j p o v, mn_posed M -> mn_input M rs X0 -> mn_objects M rs X0 l -> nth_error l j = Some p -> In o l -> nth_error (e_val o) j = Some v ->
  exists T r, v = Some r /\ targets M (reference_set (w_ref p)) (s_Y (w_state p)) T /\ discrepancy M T (s_Y (w_state p)) r.
Proof. intros M rs X0 l j p o v P. apply mobjects_logged. exact P. Qed.
Print Assumptions C129_previous.
(** it need not be that of the population it is recorded with *)
Theorem C129_current_refuted : exists M rs X0 l q, mn_posed M /\ mn_input M rs X0 /\ mn_objects M rs X0 l /\ nth_error l 1 = Some q /\
  e_Y q = [s_Y (w_state q)] /\ e_val q = [w_value q] /\
  forall T v, targets M (reference_set (w_ref q)) (s_Y (w_state q)) T -> discrepancy M T (s_Y (w_state q)) v -> w_value q <> Some v.
Proof.
  destruct stale as (o & q & HO & H). do 5 eexists. split; [apply posed1|]. split; [apply min1|]. split; [exact HO|]. split; [reflexivity|].
  destruct (C128_history _ _ _ _ 1 q HO eq_refl) as (_ & E1 & E2 & _). cbn in E1, E2. auto.
Qed.
Print Assumptions C129_current_refuted.
Example C129_example : exists o q T r, mn_posed (M2 1) /\ mn_input (M2 1) rs2 XC /\ mn_objects (M2 1) rs2 XC [o; q] /\ e_val q = [Some r] /\
  targets (M2 1) (reference_set (w_ref o)) (s_Y (w_state o)) T /\ discrepancy (M2 1) T (s_Y (w_state o)) r.
Proof.
  destruct (C128_example 1) as (l & P & HI & HO & L). destruct l as [|o [|q [|]]]; cbn in L; try lia.
  destruct (mobjects_values _ P _ _ _ 0 o q HI HO eq_refl eq_refl) as (T & r & E & HT & Hr). exists o, q, T, r. repeat (split; auto).
  destruct (C128_history _ _ _ _ 1 q HO eq_refl) as (_ & _ & E2 & _). cbn in E2. rewrite E2, E. reflexivity.
Qed.

(** * C130: no iteration fails *)
Theorem C130_iterations : forall M rs X0 n, mn_posed M -> mn_input M rs X0 -> exists l, mn_objects M rs X0 l /\ length l = S n.
Proof. intros M rs X0 n P. apply mobjects_total. exact P. Qed.
Print Assumptions C130_iterations.
Theorem C130_run : forall M rs X0 z fuel, mn_posed M -> mn_input M rs X0 -> (z <= Z.of_nat fuel)%Z -> exists o r, mn_init M rs X0 = Ok o /\ mn_run M fuel (Finite z) o = Ok r.
Proof. intros M rs X0 z fuel P. apply mrun_returns. exact P. Qed.
Print Assumptions C130_run.
(** without matching, fewer reference points than points: the first iteration fails *)
Theorem C130_small_error : forall M rs X0 comps es, mn_posed M -> n_match M = false -> (0 < length X0)%nat -> (forall x, In x X0 -> length x = c_nvar (k_prob (n_base M))) ->
  components (k_nobj (n_base M)) 1 comps es rs -> (length (concat comps) < length X0)%nat -> exists o, mn_init M rs X0 = Ok o /\ mn_iterate M o = Exn IndexError.
Proof. intros M rs X0 comps es P. apply msmall. exact P. Qed.
Print Assumptions C130_small_error.
Example C130_example : mn_posed (M1 1 0 1 false) /\ mn_input (M1 1 0 1 false) rs3 X2.
Proof. split. apply posed1. apply min3. Qed.
Example C130_small_example : exists o, mn_init (M1 1 0 1 false) rs3 [[0.1]; [0.2]; [0.3]; [0.4]] = Ok o /\ mn_iterate (M1 1 0 1 false) o = Exn IndexError.
Proof.
  eapply C130_small_error; try reflexivity. apply posed1. cbn. lia. intros x [<-|[<-|[<-|[<-|[]]]]]; reflexivity. apply comps3. lia. cbn. lia.
Qed.

(** * C131: how the reference points move *)
Theorem C131_matched : forall M rs X0 l j p q e, mn_posed M -> mn_input M rs X0 -> mn_objects M rs X0 l -> nth_error l j = Some p -> nth_error l (S j) = Some q -> n_match M = true -> rs_eta rs = [e] ->
  let steps := map (firstn (c_nvar (k_prob (n_base M)))) (w_step p) in
  exists T T' lg, best_match (reference_set (w_ref p)) (s_Y (w_state p)) T /\ length T' = length T /\ Permutation (reference_set (w_ref q)) T' /\
    (forall i, (i < length X0)%nat -> mmd_moves j (s_Y (w_state p)) T steps i -> shifted 0.08 e (nth i T []) (nth i T' [])) /\
    (forall i, (i < length X0)%nat -> ~ mmd_moves j (s_Y (w_state p)) T steps i -> nth i T' [] = nth i T []) /\
    e_med q = e_med p ++ lg /\ logged (mmd_moves j (s_Y (w_state p)) T steps) T' lg.
Proof. intros M rs X0 l j p q e P. apply mobjects_matched. exact P. Qed.
Print Assumptions C131_matched.
(** without matching every reference point moves in every iteration *)
Theorem C131_unmatched : forall M rs X0 l j o comps es, mn_posed M -> mn_input M rs X0 -> mn_objects M rs X0 l -> nth_error l j = Some o -> n_match M = false -> new_refset comps es None = Ok rs ->
  drift (0.08 * INR j) es comps (rs_ref (w_ref o)) /\ reference_set (w_ref o) = concat (rs_ref (w_ref o)).
Proof. intros M rs X0 l j o comps es P. apply mobjects_unmatched. exact P. Qed.
Print Assumptions C131_unmatched.
Example C131_example : exists o q, mn_posed (M2 1) /\ mn_input (M2 1) rs2 XC /\ mn_objects (M2 1) rs2 XC [o; q] /\ n_match (M2 1) = true /\ rs_eta rs2 = [[-1; -1]].
Proof. destruct (C128_example 1) as (l & P & HI & HO & L). destruct l as [|o [|q [|]]]; cbn in L; try lia. exists o, q. repeat (split; auto). Qed.
Example C131_unmatched_example : exists l o, mn_objects (M1 1 0 1 false) rs3 X2 l /\ nth_error l 5 = Some o /\ exists a b c, rs_ref (w_ref o) = [[[a]; [b]]; [[c]]] /\ a = - 0.4 /\ b = 0.01 /\ c = 1.1.
Proof.
  pose proof (posed1 1 0 1 false) as P. pose proof (min3 1) as HI. destruct (mobjects_total _ P rs3 X2 5 HI) as (l & HO & L).
  destruct (nth_error l 5) as [o|] eqn:E; [|apply nth_error_None in E; lia]. exists l, o. split; auto. split; auto.
  destruct (mobjects_unmatched _ P rs3 X2 l 5 o [[[0]; [0.41]]; [[0.7]]] [[-1]; [1]] HI HO E eq_refl eq_refl) as [[LC D] _].
  destruct (D 0%nat _ _ eq_refl eq_refl) as (c0 & E0 & L0 & S0). destruct (D 1%nat _ _ eq_refl eq_refl) as (c1 & E1 & L1 & S1).
  destruct (S0 0%nat ltac:(cbn; lia)) as [A1 A2]. destruct (S0 1%nat ltac:(cbn; lia)) as [B1 B2]. destruct (S1 0%nat ltac:(cbn; lia)) as [C1 C2].
  destruct (rs_ref (w_ref o)) as [|u [|v [|]]]; cbn in LC; try lia. cbn in E0, E1. injection E0 as ->. injection E1 as ->.
  destruct c0 as [|a [|b [|]]]; cbn in L0; try lia. destruct c1 as [|c [|]]; cbn in L1; try lia. cbn [nth length] in *.
  destruct a as [|a [|]]; cbn in A1; try lia. destruct b as [|b [|]]; cbn in B1; try lia. destruct c as [|c [|]]; cbn in C1; try lia.
  specialize (A2 0%nat). specialize (B2 0%nat). specialize (C2 0%nat). cbn in A2, B2, C2. exists a, b, c. split; auto. repeat split; lra.
Qed.

(** * C132: the Jacobian evaluations that are counted *)
(** those of the line search are not *)
Theorem C132_njac : forall M rs X0 l j o, mn_posed M -> mn_input M rs X0 -> mn_objects M rs X0 l -> nth_error l j = Some o -> n_jac (w_state o) = (length X0 * (j + 1))%nat.
Proof. intros M rs X0 l j o P. apply mobjects_njac. exact P. Qed.
Print Assumptions C132_njac.
Example C132_example : exists l o, mn_objects (M2 1) rs2 XC l /\ nth_error l 3 = Some o /\ n_jac (w_state o) = 8%nat.
Proof.
  destruct (C128_example 3) as (l & P & HI & HO & L). destruct (nth_error l 3) as [o|] eqn:E; [|apply nth_error_None in E; lia]. exists l, o. split; auto. split; auto.
  apply (C132_njac _ _ _ _ _ _ P HI HO E).
Qed.

(** * C133: the size of the step *)
Theorem C133_merit : forall M rs X0 l j p q, mn_posed M -> mn_smooth M -> mn_input M rs X0 -> mn_objects M rs X0 l -> nth_error l j = Some p -> nth_error l (S j) = Some q ->
  let X := s_X (w_state p) in let r := euclid (concat (w_R q)) in let ref := reference_set (w_ref q) in
  exists a, w_size q = Some a /\ moved_by a X (w_step q) (s_X (w_state q)) /\ is_evaluated M (w_state q) /\
  ((a = 1 /\ exists x, median (concat (map (firstn (c_nvar (k_prob (n_base M)))) (w_step q))) = Fin x /\ Rabs (x - / 10 ^ 15) <= / 10 ^ 8 + / 10 ^ 5 * / 10 ^ 15) \/
   exists k, (k <= 6)%nat /\ a = (/ 2) ^ k /\
   ((k < 6)%nat -> exists Rm, targets M ref (s_Y (w_state q)) ref /\ is_residual M (w_state q) ref Rm /\
     (euclid (concat Rm) <= (1 - a / 10 ^ 6) * r \/ Rabs (r - eps_mach) <= / 10 ^ 8 + / 10 ^ 5 * eps_mach)) /\
   (forall k', (k' < k)%nat -> exists s T Rm, moved_by ((/ 2) ^ k') X (w_step q) (s_X s) /\ is_evaluated M s /\ targets M ref (s_Y s) T /\ is_residual M s T Rm /\
     (1 - (/ 2) ^ k' / 10 ^ 6) * r < euclid (concat Rm))).
Proof. intros M rs X0 l j p q P HS. apply mobjects_merit; auto. Qed.
Print Assumptions C133_merit.
Example C133_example : exists o q, mn_posed (M2 1) /\ mn_smooth (M2 1) /\ mn_input (M2 1) rs2 XC /\ mn_objects (M2 1) rs2 XC [o; q].
Proof. destruct (C128_example 1) as (l & P & HI & HO & L). destruct l as [|o [|q [|]]]; cbn in L; try lia. exists o, q. split; auto. split. apply smooth2. auto. Qed.

(** * C134: the step *)
Theorem C134_newton : forall M rs X0 l j p q, mn_posed M -> mn_smooth M -> mn_input M rs X0 -> mn_objects M rs X0 l -> nth_error l j = Some p -> nth_error l (S j) = Some q ->
  let X := primal_of (n_base M) (w_state p) in let n := c_nvar (k_prob (n_base M)) in let nc := (c_neq (k_prob (n_base M)) + c_nieq (k_prob (n_base M)))%nat in
  exists T g H, Permutation T (reference_set (w_ref q)) /\ targets M (reference_set (w_ref q)) (s_Y (w_state p)) T /\ is_gradient M T X g /\ is_hessian M T X H /\ is_residual M (w_state p) T (w_R q) /\
    let A := if k_pre (n_base M) then precond (k_chol (n_base M)) H else H in let ps := points_of (n_base M) (w_state p) g in
    matrix (length X0) (n + nc) (w_step q) /\ ((exists st, matrix (length X0) (n + nc) st /\ linear_kkt false n nc A ps st) -> linear_kkt false n nc A ps (w_step q)) /\
    (is_constrained (n_base M) = true -> inactive_zero n nc ps (w_step q)).
Proof. intros M rs X0 l j p q P HS. apply mobjects_newton; auto. Qed.
Print Assumptions C134_newton.
Example C134_example : exists o q, mn_posed (M1 1 0 1 false) /\ mn_smooth (M1 1 0 1 false) /\ mn_input (M1 1 0 1 false) rs3 X2 /\ mn_objects (M1 1 0 1 false) rs3 X2 [o; q].
Proof.
  destruct (mobjects_total _ (posed1 1 0 1 false) rs3 X2 1 (min3 1)) as (l & HO & L). destruct l as [|o [|q [|]]]; cbn in L; try lia. exists o, q.
  split. apply posed1. split. apply smooth1. split. apply min3. auto.
Qed.

(** * C135: the bounds *)
(** only the initial points are put into the box *)
Theorem C135_initial : forall M rs X0 o x, mn_posed M -> mn_input M rs X0 -> (forall k, (k < c_nvar (k_prob (n_base M)))%nat -> nth k (k_xl (n_base M)) 0 <= nth k (k_xu (n_base M)) 0) ->
  mn_init M rs X0 = Ok o -> In x (primal_of (n_base M) (w_state o)) -> IterSpec.in_box (k_xl (n_base M)) (k_xu (n_base M)) x.
Proof.
  intros M rs X0 o x P (_ & HX & _) Hb Ho. destruct (np_problem M P) as [? ? ? ? ? ? ? ? ?]. unfold mn_init in Ho. destruct (upd _ _ _) as [s|] eqn:E; [|discriminate]. injection Ho as <-.
  intros Hx. refine (IterMain.init_in_box (n_base M) rs X0 (mkDpn s rs 0 0 0 [] [] [] [] [] [] [] []) HX _ _ Hb _ x Hx); try apply (np_problem M P). unfold dpn_init. rewrite E. reflexivity.
Qed.
Print Assumptions C135_initial.
Theorem C135_bounds_unused : forall M xl xu o, mn_iterate (with_bounds M xl xu) o = mn_iterate M o.
Proof. exact bounds_unused. Qed.
Print Assumptions C135_bounds_unused.
Theorem C135_box_refuted : exists M rs X0 l o q x x', mn_posed M /\ mn_input M rs X0 /\ mn_objects M rs X0 l /\ nth_error l 0 = Some o /\ nth_error l 1 = Some q /\
  primal_of (n_base M) (w_state o) = [x] /\ primal_of (n_base M) (w_state q) = [x'] /\
  IterSpec.in_box (k_xl (n_base M)) (k_xu (n_base M)) x /\ ~ IterSpec.in_box (k_xl (n_base M)) (k_xu (n_base M)) x'.
Proof.
  destruct leaves as (o & q & HO & H1 & H2). exists (M1 1 0 1 true), (ref1 0 0), [[1]], [o; q], o, q, [1], [2].
  split. apply posed1. split. apply min1. split. exact HO. split. reflexivity. split. reflexivity. split. exact H1. split. exact H2.
  split; [split; [reflexivity|split; [reflexivity|]]|]; cbn.
  - intros [|k] Hk; [cbn; lra|lia].
  - intros (_ & _ & H). specialize (H 0%nat ltac:(cbn; lia)). cbn in H. lra.
Qed.
Print Assumptions C135_box_refuted.
Example C135_example : exists o x, mn_posed (M1 1 0 1 true) /\ mn_input (M1 1 0 1 true) (ref1 0 0) [[5]] /\ mn_init (M1 1 0 1 true) (ref1 0 0) [[5]] = Ok o /\ In x (primal_of (K1 Deltap 0 1) (w_state o)) /\ x = [1].
Proof.
  assert (E : clip_row [0] [1] [5] = [1]) by (unfold clip_row; cbn; rewrite Rmax_left, Rmin_right by lra; reflexivity).
  unfold mn_init. cbn [map]. change (k_xl (n_base (M1 1 0 1 true))) with [0]. change (k_xu (n_base (M1 1 0 1 true))) with [1]. rewrite E.
  eexists _, [1]. split. apply posed1. split. apply min1. split; [reflexivity|]. split; [left; reflexivity|reflexivity].
Qed.

(** * C136: one point and the Gaussian kernel *)
(** the Newton step multiplies the difference to the target by z/(z - 1), where z is 2 theta times the square of the distance *)
Theorem C136_step : forall M n theta rs X0 l j p q, mn_posed M -> point_problem M n theta -> length X0 = 1%nat -> mn_input M rs X0 -> mn_objects M rs X0 l -> nth_error l j = Some p -> nth_error l (S j) = Some q ->
  exists x t x', primal_of (n_base M) (w_state p) = [x] /\ primal_of (n_base M) (w_state q) = [x'] /\ reference_set (w_ref q) = [t] /\ length x = n /\ length t = n /\ length x' = n /\
  let z := 2 * theta * sqd x t in euclid (concat (w_R q)) = 4 * theta * exp (- theta * sqd x t) * edist x t /\
  (z <> 1 -> exists d, w_step q = [d] /\ length d = n /\ forall k, (k < n)%nat -> nth k x 0 + nth k d 0 - nth k t 0 = z / (z - 1) * (nth k x 0 - nth k t 0)) /\
  (1 < z \/ z <= 1 / 4 -> w_size q = Some 1 /\ forall k, (k < n)%nat -> nth k x' 0 - nth k t 0 = z / (z - 1) * (nth k x 0 - nth k t 0)).
Proof.
  intros M n theta rs X0 l j p q P PP H1 HI HO Hp Hq. destruct (run_next M P n theta PP rs X0 l j p q H1 HI HO Hp Hq) as (x & t & x' & A & A' & Et & Lt & Er & Hs & Ha).
  destruct (at_facts M P n theta PP _ _ A) as (_ & Ex & _). destruct (at_facts M P n theta PP _ _ A') as (_ & Ex' & _).
  exists x, t, x'. split; auto. split; auto. split; auto. split. apply A. split; auto. split. apply A'. split; auto. split; auto.
  intros Hz. destruct (Hs Hz) as (d & Ed & Ld & Hd). exists d. split; auto. split; auto. intros k Hk. rewrite (Hd k Hk). unfold z_of in *. field. lra.
Qed.
Print Assumptions C136_step.
(** beyond z = 1 the point runs away for ever, with steps of size 1, while the residual goes to 0 *)
Theorem C136_away : forall M n theta rs X0 l o0 o1 x0 t, mn_posed M -> point_problem M n theta -> length X0 = 1%nat -> mn_input M rs X0 -> mn_objects M rs X0 l -> nth_error l 0 = Some o0 -> nth_error l 1 = Some o1 ->
  theta <= 10 ^ 15 -> primal_of (n_base M) (w_state o0) = [x0] -> reference_set (w_ref o1) = [t] -> 1 < 2 * theta * sqd x0 t ->
  forall j p, nth_error l j = Some p -> exists x, primal_of (n_base M) (w_state p) = [x] /\ 2 * theta * sqd x0 t + 2 * INR j <= 2 * theta * sqd x t /\
    ((0 < j)%nat -> reference_set (w_ref p) = [t] /\ w_size p = Some 1 /\ euclid (concat (w_R p)) <= exp (- INR (j - 1)) * euclid (concat (w_R o1))).
Proof. intros M n theta rs X0 l o0 o1 x0 t P PP. apply (run_away M P n theta PP). Qed.
Print Assumptions C136_away.
(** near the target the distance is cubed, up to a factor *)
Theorem C136_near : forall M n theta rs X0 l j p q x t, mn_posed M -> point_problem M n theta -> length X0 = 1%nat -> mn_input M rs X0 -> mn_objects M rs X0 l -> nth_error l j = Some p -> nth_error l (S j) = Some q ->
  primal_of (n_base M) (w_state p) = [x] -> reference_set (w_ref q) = [t] -> 2 * theta * sqd x t <= 1 / 4 ->
  exists x', primal_of (n_base M) (w_state q) = [x'] /\ w_size q = Some 1 /\ edist x' t = 2 * theta * edist x t ^ 3 / (1 - 2 * theta * sqd x t) /\ edist x' t <= edist x t / 3.
Proof. intros M n theta rs X0 l j p q x t P PP. apply (run_near M P n theta PP). Qed.
Print Assumptions C136_near.
(** and the point follows its target if the shifts are small for the kernel *)
Theorem C136_tracks : forall M n theta rs X0 l o0 o1 x0 t1 e, mn_posed M -> point_problem M n theta -> length X0 = 1%nat -> mn_input M rs X0 -> mn_objects M rs X0 l -> nth_error l 0 = Some o0 -> nth_error l 1 = Some o1 ->
  primal_of (n_base M) (w_state o0) = [x0] -> reference_set (w_ref o1) = [t1] -> 2 * theta * sqd x0 t1 <= 1 / 4 -> rs_eta rs = [e] -> theta * (/ 10 ^ 16 + 0.08 ^ 2 * sumR (map (fun a => a ^ 2) e)) <= 1 / 16 ->
  forall j p q, nth_error l j = Some p -> nth_error l (S j) = Some q -> exists x x' t, primal_of (n_base M) (w_state p) = [x] /\ primal_of (n_base M) (w_state q) = [x'] /\ reference_set (w_ref q) = [t] /\
    w_size q = Some 1 /\ 2 * theta * sqd x t <= 1 / 4 /\ edist x' t <= edist x t / 3.
Proof. intros M n theta rs X0 l o0 o1 x0 t1 e P PP. apply (run_tracks M P n theta PP). Qed.
Print Assumptions C136_tracks.
(** from 1 with the target 0 and theta = 1: away; from 1/4: to the target *)
Example C136_away_example : forall n, exists l o, mn_objects (M1 1 0 1 true) (ref1 0 0) [[1]] l /\ nth_error l n = Some o /\ exists x, primal_of (K1 Deltap 0 1) (w_state o) = [x] /\ 2 + 2 * INR n <= 2 * sqd x [0].
Proof.
  intros n. destruct (first1 1 0 1 0 1 ltac:(lra) ltac:(lra)) as (o & q & HO & Ex & Hy & Hr & Ex' & Hy' & Hr'); [left; lra|].
  pose proof (posed1 1 0 1 true) as P. pose proof (min1 1 0 1 0 0 1) as HI. pose proof (point1 1 0 1 ltac:(lra)) as PP.
  destruct (mobjects_total _ P (ref1 0 0) [[1]] (S n) HI) as (l & Hl & L). destruct (nth_error l n) as [p|] eqn:E; [|apply nth_error_None in E; lia]. exists l, p. split; auto. split; auto.
  destruct l as [|o' [|q' l]]; cbn in L; try lia. assert (o' = o /\ q' = q) as [-> ->].
  { destruct HO as [E1 [E2 _]], Hl as [F1 [F2 _]]. rewrite E1 in F1. injection F1 as <-. rewrite E2 in F2. injection F2 as <-. auto. }
  destruct (C136_away _ 1 1 _ [[1]] _ o q [1] [0] P PP eq_refl HI Hl eq_refl eq_refl ltac:(lra) Ex Hr' ltac:(rewrite sqd1; lra) n p E) as (x & E1 & E2 & _). exists x. split; auto. rewrite sqd1 in E2. lra.
Qed.
Example C136_near_example : exists o q, mn_objects (M1 1 0 1 true) (ref1 0 0) [[0.25]] [o; q] /\ primal_of (K1 Deltap 0 1) (w_state o) = [[0.25]] /\ reference_set (w_ref q) = [[0]] /\
  2 * 1 * sqd [0.25] [0] <= 1 / 4 /\ primal_of (K1 Deltap 0 1) (w_state q) = [[- 1 / 28]].
Proof.
  destruct (first1 1 0 1 0 0.25 ltac:(lra) ltac:(lra)) as (o & q & HO & Ex & Hy & Hr & Ex' & Hy' & Hr'); [right; lra|].
  exists o, q. split; auto. split; auto. split; auto. split. rewrite sqd1. lra. rewrite Ex'. do 2 f_equal. lra.
Qed.
Example C136_tracks_example : mn_posed (M1 1 0 1 true) /\ point_problem (M1 1 0 1 true) 1 1 /\ mn_input (M1 1 0 1 true) (ref1 0 (-1)) [[0.25]] /\ 1 * (/ 10 ^ 16 + 0.08 ^ 2 * sumR (map (fun a => a ^ 2) [-1])) <= 1 / 16.
Proof. split. apply posed1. split. apply point1. lra. split. apply min1. cbn. lra. Qed.
