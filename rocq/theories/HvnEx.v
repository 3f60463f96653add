(** Concrete instances of HVN. *)
From Coq Require Import List Arith Bool Reals ZArith Lia Lra Permutation Sorted.
From Verif Require Import Num Exn ListAux MiscModel HVModel HVSpec HVTheory HVTop HVHom StateModel StateSpec StepSpec NewtonModel RefModel HVXModel StepModel StepSolver ShiftModel IterModel IterSpec IterEx2 HvnModel HvnSpec HvnRun HvnOpt HvnEven HvnTop.
Import ListNotations.
Open Scope R_scope.

(** * one variable, f(x) = (x, 1 - x), the box [0, 1], the reference point (r, 1) *)
Definition lineprob : pconfig :=
  mkCfg 1 0 0 (mkCb (fun x => [nth 0 x 0; 1 - nth 0 x 0]) None) (mkCb (fun _ k _ => if (k =? 0)%nat then 1 else -1) None) None None None None None None.
Definition VL (r : R) (lim : bool) : hvn_cfg :=
  mkHvnCfg lineprob (fun _ _ _ _ => 0) [0] [1] [r; 1] 2 false lim (fun l => l) (-1000) stable_argsort solve0 lstsq0 (fun _ _ => None).
Lemma posedL r lim : hvn_posed (VL r lim).
Proof.
  constructor; cbn; auto; [|apply solve0_ok|apply lstsq0_ok].
  constructor; cbn; auto; try discriminate; try (intros ? ? H; discriminate H); try (intros ? ? ? H; discriminate H).
  - repeat split; try (intros X; discriminate); try (intros f g H; discriminate H); intros ? ?; discriminate.
  - intros [H|H]; congruence.
Qed.
Lemma lineL r lim : 0 < r -> line_problem (VL r lim) 0 1 1 1.
Proof.
  intros Hr. constructor; cbn; auto; try lra. intros x. rewrite Rplus_0_l, !Rmult_1_l. reflexivity.
Qed.
Lemma inputL r lim X0 : X0 <> [] -> (forall x, In x X0 -> length x = 1%nat) -> hvn_input (VL r lim) X0.
Proof. intros H1 H2. split; [|exact H2]. destruct X0; [congruence|apply Nat.lt_0_succ]. Qed.
Lemma argsortL r lim : argsort_ok (v_argsort (VL r lim)).
Proof. apply stable_argsort_ok. Qed.
Lemma clip01 x : 0 <= x <= 1 -> clip_row [0] [1] [x] = [x].
Proof. intros H. unfold clip_row. cbn. f_equal. unfold Rmin, Rmax. repeat destruct (Rle_dec _ _); lra. Qed.
Lemma initL r lim x o : 0 <= x <= 1 -> hvn_init (VL r lim) [[x]] = Ok o -> vprimal (VL r lim) (n_state o) = [[x]] /\ s_Y (n_state o) = [[x; 1 - x]].
Proof.
  intros Hx E. unfold hvn_init in E. cbn [map] in E. change (v_xl (VL r lim)) with [0] in E. change (v_xu (VL r lim)) with [1] in E. rewrite clip01 in E by auto.
  change (vdim_d (VL r lim)) with 0%nat in E. cbn in E. injection E as <-. cbn. auto.
Qed.
(** the hypervolume of sorted points of the line *)
Lemma hvL r zs : 0 < r -> StronglySorted Rle zs -> (forall z, In z zs -> 0 <= z <= r) -> is_hypervolume (map (fun z => [z; 1 - z]) zs) [r; 1] (gain 0 r zs).
Proof.
  intros Hr Hs Hb. assert (E : gain 0 r zs = hv 2 (co [r; 1]) (map co (map (fun z => [z; 1 - z]) zs))).
  { rewrite map_map. rewrite (map_ext (fun z => co [z; 1 - z]) (fun z => co (on_line 0 1 1 1 z))).
    - rewrite (hv_sorted 0 1 1 1 r 1); try lra; auto. replace ((1 - 1) / 1) with 0 by field. replace ((r - 0) / 1) with r by field. ring. intros z Hz. specialize (Hb z Hz). lra.
    - intros z. unfold on_line. rewrite Rplus_0_l, !Rmult_1_l. reflexivity. }
  rewrite E. apply (hv_is_hypervolume (map (fun z => [z; 1 - z]) zs) [r; 1]). intros y Hy. apply in_map_iff in Hy as (z & <- & _). reflexivity.
Qed.
Lemma spacingL r lim N : spacing (VL r lim) 0 1 1 1 N = r / INR (S N).
Proof. unfold spacing. cbn [VL v_ref nth]. f_equal. field. Qed.
Lemma evenL r lim N u : even_point (VL r lim) 0 1 1 1 N u = INR (S u) * (r / INR (S N)).
Proof. unfold even_point. rewrite spacingL. cbn [VL v_ref nth]. field. apply not_0_INR. lia. Qed.

(** * two variables, f(x) = x, the equality constraint x1 + x2 = 1 *)
Definition VE (lim : bool) : hvn_cfg :=
  mkHvnCfg prob2 (fun _ _ _ _ => 0) [0; 0] [1; 1] [2; 2] 2 false lim (fun l => l) (-1000) stable_argsort solve0 lstsq0 (fun _ _ => None).
Lemma posedE lim : hvn_posed (VE lim).
Proof.
  constructor; cbn; auto; [|apply solve0_ok|apply lstsq0_ok].
  constructor; cbn; auto; try discriminate; try (intros g x H; injection H as <-; reflexivity); try (intros ? ? H; discriminate H); try (intros ? ? ? H; discriminate H).
  - repeat split; cbn; try (intros b Hb; discriminate Hb); exact I.
  - intros g x r H _. injection H as <-. cbn. intros [<-|[]]. reflexivity.
  - intros _. left. discriminate.
Qed.
Definition XE : list (list R) := [[0.5; 0.5]; [0.25; 0.75]; [0.5; 0.5]; [0.9; 0.9]].
Lemma inputE lim : hvn_input (VE lim) XE.
Proof. split; [cbn; lia|]. intros x [<-|[<-|[<-|[<-|[]]]]]; reflexivity. Qed.
Lemma totalE n : exists l, hvn_objects (VE false) XE l /\ length l = S n.
Proof. apply objects_total. apply posedE. apply inputE. apply defined. apply posedE. apply stable_argsort_ok. left. reflexivity. reflexivity. Qed.

(** * three variables, f(x) = (x1^2, x2^2, x3^2) *)
Definition V3 : hvn_cfg :=
  mkHvnCfg (mkCfg 3 0 0 (mkCb (fun x => [(nth 0 x 0) ^ 2; (nth 1 x 0) ^ 2; (nth 2 x 0) ^ 2]) None) (mkCb (fun x a k => if (a =? k)%nat then 2 * nth k x 0 else 0) None) None None None None None None)
    (fun _ m a k => if (m =? a)%nat && (a =? k)%nat then 2 else 0) [0; 0; 0] [1; 1; 1] [2; 2; 2] 3 false false (fun l => l) (-1000) stable_argsort solve0 lstsq0 (fun _ _ => None).
Lemma posed3 : hvn_posed V3.
Proof.
  constructor; cbn; auto; [|apply solve0_ok|apply lstsq0_ok].
  constructor; cbn; auto; try discriminate; try (intros ? ? H; discriminate H); try (intros ? ? ? H; discriminate H).
  - repeat split; try (intros X; discriminate); try (intros f g H; discriminate H); intros ? ?; discriminate.
  - intros [H|H]; congruence.
Qed.
Lemma three3 : two_or_three V3.
Proof.
  right. split; auto. intros x k Hx Hk. cbn. destruct k as [|[|[|k]]]; try lia; cbn; pose proof (Rle_0_sqr (nth 0 x 0)); pose proof (Rle_0_sqr (nth 1 x 0)); pose proof (Rle_0_sqr (nth 2 x 0)); unfold Rsqr in *; lra.
Qed.
