(** Concrete runs of DpN. *)
From Coq Require Import List Arith Bool Reals ZArith Lia Lra Permutation.
From Verif Require Import Num Exn ListAux MiscModel StateModel StateSpec StateProof StepSpec NewtonModel NewtonProof NewtonBox NewtonPop RefModel RefSpec RefProof HVXModel IndModel IndSpec IndProof IndTop StepModel ShiftModel StepTop StepSolver IterModel IterSpec IterProof IterMain IterOracle IterEx IterTop.
Import ListNotations.
Open Scope R_scope.

(** * one point, one iteration *)
Lemma clip1 a b x : a <= x -> x <= b -> clip_row [a] [b] [x] = [x].
Proof. intros H1 H2. unfold clip_row. cbn. rewrite Rmax_left, Rmin_left; auto. Qed.
Lemma input1 t a b r e x : input (K1 t a b) (ref1 r e) [[x]].
Proof.
  split; [cbn; lia|]. split. intros y [<-|[]]. reflexivity. exists [[r]], [e]. split; [reflexivity|]. cbn. repeat split; auto. intros y [<-|[]]. reflexivity.
Qed.
Lemma init1 t a b r e x : a <= x <= b -> dpn_init (K1 t a b) (ref1 r e) [[x]] = Ok (mkDpn (st1 x 1) (ref1 r e) 0 0 0 [] [] [] [] [] [] [] []).
Proof. intros H. unfold dpn_init. cbn [map]. change (k_xl (K1 t a b)) with [a]. change (k_xu (K1 t a b)) with [b]. rewrite clip1 by lra. reflexivity. Qed.
Lemma objects1 t a b r e x r' : a < x < b -> r' = r + 0.08 * e -> (/ 10 ^ 8 < Rabs (r' - x) /\ a <= r' <= b) \/ Rabs (r' - x) <= / 10 ^ 8 ->
  exists o0 o1, objects (K1 t a b) (ref1 r e) [[x]] [o0; o1] /\ d_state o0 = st1 x 1 /\ d_ref o0 = ref1 r e /\
  (exists n, d_state o1 = st1 r' n) /\ d_ref o1 = ref1m r r' e /\ d_gd o1 = Rabs (x - r) /\ d_igd o1 = (x - r) * (x - r) /\ d_step o1 = [[r' - x]] /\ d_size o1 = [1].
Proof.
  intros Hx Hr H. do 2 eexists. split. split. apply init1; lra. split; [|exact I].
  unfold dpn_iterate. erewrite (iteration1 t a b _ r r r' e x 1); [reflexivity|reflexivity|left; auto|auto|rewrite Hr; apply shift1_first|auto].
  cbn. repeat split; auto. eexists. reflexivity.
Qed.
(** values for one point *)
Lemma edist1 x r : edist [x] [r] = Rabs (x - r).
Proof. unfold edist, sqd. cbn. replace ((x - r) * ((x - r) * 1) + 0) with (Rsqr (x - r)) by (unfold Rsqr; ring). apply sqrt_Rsqr_abs. Qed.
Lemma gd_is1 r x v : gd_is [[r]] [[x]] v -> v = Rabs (x - r).
Proof.
  intros [Hv (ds & L & Hd & E)]. destruct ds as [|d [|]]; simpl in L; try lia. destruct (Hd 0%nat ltac:(cbn; lia)) as [(q & [<-|[]] & Hq) _]. cbn in Hq.
  assert (Ed : d = Rabs (x - r)) by (rewrite Hq; apply edist1).
  cbn in E. unfold sumR in E. cbn in E. rewrite pw_2 in E by (rewrite Ed; apply Rabs_pos). pose proof (Rabs_pos (x - r)). rewrite <- Ed in *. nra.
Qed.
Lemma igd_is1 r x v : igd_is [[r]] [[x]] v -> v = (x - r) * (x - r).
Proof.
  intros (M & (L & [rest Hi] & _) & ->). destruct M as [|q [|]]; simpl in L; try lia. destruct (Permutation_in q Hi (or_introl eq_refl)) as [<-|[]]. cbn. unfold sumR, sqd. cbn. field.
Qed.

(** * two points *)
Definition ref2 : refset := mkRS [[[0]; [0.41]]] [[0]] None true [None] None.
Definition X2 : list (list R) := [[0.1]; [0.2]].
Lemma input2 t : input (K1 t 0 1) ref2 X2.
Proof.
  split; [cbn; lia|]. split. intros y [<-|[<-|[]]]; reflexivity. exists [[0]; [0.41]], [0]. split; [reflexivity|]. cbn. repeat split; auto. intros y [<-|[<-|[]]]; reflexivity.
Qed.
Lemma init2 t : exists o, dpn_init (K1 t 0 1) ref2 X2 = Ok o /\ d_ref o = ref2 /\ s_Y (d_state o) = X2 /\ primal_of (K1 t 0 1) (d_state o) = X2.
Proof.
  unfold dpn_init, X2. cbn [map]. change (k_xl (K1 t 0 1)) with [0]. change (k_xu (K1 t 0 1)) with [1]. rewrite !clip1 by lra. eexists. split; [reflexivity|]. repeat split.
Qed.
Lemma gd_is2 v : gd_is [[0]; [0.41]] X2 v -> v * v = 0.025.
Proof.
  intros [Hv (ds & L & Hd & E)]. unfold X2 in *. destruct ds as [|d1 [|d2 [|]]]; simpl in L; try lia.
  destruct (Hd 0%nat ltac:(cbn; lia)) as [(q1 & Hq1 & Eq1) M1]. destruct (Hd 1%nat ltac:(cbn; lia)) as [(q2 & Hq2 & Eq2) M2]. cbn [nth] in *.
  assert (D1 : d1 = 0.1).
  { specialize (M1 [0] (or_introl eq_refl)). rewrite edist1 in M1. rewrite Rabs_right in M1 by lra. destruct Hq1 as [<-|[<-|[]]]; rewrite Eq1 in *; rewrite edist1 in *. rewrite Rabs_right by lra. lra. rewrite Rabs_left in M1 by lra. lra. }
  assert (D2 : d2 = 0.2).
  { specialize (M2 [0] (or_introl eq_refl)). rewrite edist1 in M2. rewrite Rabs_right in M2 by lra. destruct Hq2 as [<-|[<-|[]]]; rewrite Eq2 in *; rewrite edist1 in *. rewrite Rabs_right by lra. lra. rewrite Rabs_left in M2 by lra. lra. }
  rewrite E, D1, D2. unfold sumR. cbn [map fold_right length INR].
 rewrite !pw_2 by lra. lra.
Qed.
Lemma best2 M : best_match [[0]; [0.41]] X2 M -> M = [[0]; [0.41]].
Proof.
  intros (L & [rest HP] & Hb). assert (rest = []) as -> by (apply Permutation_length in HP; rewrite app_length, L in HP; destruct rest; auto; simpl in HP; lia). rewrite app_nil_r in HP.
  specialize (Hb _ (Permutation_sym HP)). apply Permutation_sym, perms_spec in HP. cbn in HP. destruct HP as [<-|[<-|[]]]; auto. exfalso.
  unfold sum_dist, X2 in Hb. cbn [zip_with fold_right] in Hb. rewrite !dist2_edist, !edist1 in Hb. rewrite (Rabs_left (0.1 - 0.41)), (Rabs_right (0.2 - 0)), (Rabs_right (0.1 - 0)), (Rabs_left (0.2 - 0.41)) in Hb by lra. lra.
Qed.
Lemma igd_is2 v : igd_is [[0]; [0.41]] X2 v -> v = 0.02705.
Proof. intros (M & HM & ->). apply best2 in HM as ->. unfold sumR, sqd, X2. cbn. lra. Qed.

(** * two variables, an equality constraint *)
Definition prob2 : pconfig :=
  mkCfg 2 1 0 (mkCb (fun x => [nth 0 x 0; nth 1 x 0]) None) (mkCb (fun _ a k => if (a =? k)%nat then 1 else 0) None)
    (Some (mkCb (fun x => [nth 0 x 0 + nth 1 x 0 - 1]) None)) (Some (mkCb (fun _ => [[1; 1]]) None)) (Some (mkCb (fun _ => [[[0; 0]; [0; 0]]]) None)) None None None.
Definition K2 : dpn_cfg := mkDpnCfg prob2 (fun _ _ _ _ => 0) [0; 0] [1; 1] Deltap true 2 lsa0 (fun _ _ => Ok 0) kmedoids0 solve0 lstsq0 (fun _ _ => None).
Definition rs2 : refset := mkRS [[[0; 0.9]; [0.4; 0.4]; [0.9; 0]]] [[-1; -1]] None true [None] None.
Lemma wp2 : well_posed K2.
Proof.
  constructor; cbn; auto; try discriminate; try (intros g x H; injection H as <-; reflexivity); try (intros ? ? H; discriminate H); try (intros ? ? ? H; discriminate H).
  - repeat split; cbn; try (intros b Hb; discriminate Hb); exact I.
  - intros g x r H _. injection H as <-. cbn. intros [<-|[]]. reflexivity.
  - intros _. left. discriminate.
Qed.
Lemma oo2 : oracles_ok K2.
Proof. constructor; cbn. apply solve0_ok. apply lstsq0_ok. apply lsa0_ok. apply lsa0_total. apply kmedoids0_ok. apply kmedoids0_total. Qed.
Lemma inp2 : input K2 rs2 [[0.2; 0.9]; [0.7; 0.7]].
Proof.
  split; [cbn; lia|]. split. intros y [<-|[<-|[]]]; reflexivity. eexists _, _. split; [reflexivity|]. cbn. repeat split; auto. intros y [<-|[<-|[<-|[]]]]; reflexivity.
Qed.
