(** Concrete runs of MMDNewton. *)
From Coq Require Import List Arith Bool Reals ZArith Lia Lra Permutation.
From Coquelicot Require Import Coquelicot.
From Verif Require Import Num Exn ListAux StateModel StateSpec NewtonModel RefModel RefSpec HVDProof HVXModel HVXSpec HVXProof IndModel IndSpec IndProof MMDModel MMDSpec MMDKern StepModel StepSpec ShiftModel ShiftSpec StepTop StepSolver IterModel IterSpec IterProof IterOracle IterEx IterEx2 MnModel MnSpec MnProof MnMain MnTop MnDyn.
Import ListNotations.
Open Scope R_scope.

(** * one variable, the identity as objective, the Gaussian kernel *)
Definition M1 (theta a b : R) (matching : bool) : mn_cfg := mkMnCfg (K1 Deltap a b) (rbf_kern theta) matching.
Lemma posed1 theta a b mt : mn_posed (M1 theta a b mt).
Proof. constructor. apply wp1. apply oo1. reflexivity. reflexivity. Qed.
Lemma rbf_sym theta x y a b : length x = length y -> rad_dxdy (rbf1 theta) (rbf2 theta) x y a b = rad_dxdy (rbf1 theta) (rbf2 theta) y x a b.
Proof. intros H. unfold rad_dxdy, rad_dx2. rewrite (sqd_sym x y) by auto. ring. Qed.
Lemma smooth1 theta a b mt : mn_smooth (M1 theta a b mt).
Proof.
  constructor.
  - apply rbf_ok.
  - intros x y u v Hx Hy _ _. apply rbf_sym. congruence.
  - intros x Hx k v Hk Hv. destruct x as [|u [|]]; cbn in Hx; try lia. cbn in Hk, Hv. destruct k; [|lia]. destruct v; [|lia]. cbn. apply @is_derive_id.
  - intros x Hx k v w Hk Hv Hw. cbn. split; auto. apply @is_derive_const.
Qed.
Lemma point1 theta a b : 0 < theta -> point_problem (M1 theta a b true) 1 theta.
Proof.
  intros Ht. constructor; try reflexivity; auto.
  - cbn. repeat split; reflexivity.
  - intros x Hx. destruct x as [|u [|]]; cbn in Hx; try lia. reflexivity.
  - intros x u k _ Hu Hk. destruct u; [|lia]. destruct k; [|lia]. reflexivity.
  - intros x y u. cbn. unfold rad_dx, rbf1. ring.
  - intros x y u v. cbn. unfold rad_dx2, rbf1, rbf2, delta. destruct (u =? v)%nat; ring.
Qed.
Lemma min1 theta a b r e x : mn_input (M1 theta a b true) (ref1 r e) [[x]].
Proof. apply (input1 Deltap a b r e x). Qed.
(** two points, matched *)
Lemma min2 theta : mn_input (M1 theta 0 1 true) ref2 X2.
Proof. apply (input2 Deltap). Qed.
(** two points, three reference points in two components, not matched *)
Definition rs3 : refset := mkRS [[[0]; [0.41]]; [[0.7]]] [[-1]; [1]] None true [None; None] None.
Lemma comps3 N : (N <= 3)%nat -> components 1 N [[[0]; [0.41]]; [[0.7]]] [[-1]; [1]] rs3.
Proof.
  intros HN. split; [reflexivity|]. split; [reflexivity|]. split. intros e [<-|[<-|[]]]; reflexivity. split. intros r [<-|[<-|[<-|[]]]]; reflexivity. cbn. lia.
Qed.
Lemma min3 theta : mn_input (M1 theta 0 1 false) rs3 X2.
Proof. split; [cbn; lia|]. split. intros y [<-|[<-|[]]]; reflexivity. eexists _, _. apply comps3. cbn. lia. Qed.

(** * two variables and an equality constraint *)
Definition prob2m : pconfig :=
  mkCfg 2 1 0 (mkCb (fun x => [nth 0 x 0; nth 1 x 0]) None) (mkCb (fun _ a k => if (a =? k)%nat then 1 else 0) None)
    (Some (mkCb (fun x => [nth 0 x 0 + nth 1 x 0 - 1]) None)) (Some (mkCb (fun _ => [[1; 1]]) None)) None None None None.
Definition K2m : dpn_cfg := mkDpnCfg prob2m (fun _ _ _ _ => 0) [0; 0] [1; 1] Deltap true 2 lsa0 (fun _ _ => Ok 0) kmedoids0 solve0 lstsq0 (fun _ _ => None).
Definition M2 (theta : R) : mn_cfg := mkMnCfg K2m (rbf_kern theta) true.
Definition XC : list (list R) := [[0.2; 0.9]; [0.7; 0.7]].
Lemma posed2 theta : mn_posed (M2 theta).
Proof.
  constructor; try reflexivity.
  - constructor; cbn; auto; try discriminate; try (intros g x H; injection H as <-; reflexivity); try (intros ? ? H; discriminate H); try (intros ? ? ? H; discriminate H).
    + repeat split; cbn; try (intros b Hb; discriminate Hb); exact I.
    + intros g x r H _. injection H as <-. cbn. intros [<-|[]]. reflexivity.
    + intros _. left. discriminate.
  - constructor; cbn. apply solve0_ok. apply lstsq0_ok. apply lsa0_ok. apply lsa0_total. apply kmedoids0_ok. apply kmedoids0_total.
Qed.
Lemma smooth2 theta : mn_smooth (M2 theta).
Proof.
  constructor.
  - apply rbf_ok.
  - intros x y u v Hx Hy _ _. apply rbf_sym. congruence.
  - intros x Hx k v Hk Hv. destruct x as [|u [|w [|]]]; cbn in Hx; try lia. cbn in Hk, Hv. destruct k as [|[|k]]; [| |lia]; (destruct v as [|[|v]]; [| |lia]); cbn; try apply @is_derive_id; apply @is_derive_const.
  - intros x Hx k v w Hk Hv Hw. cbn. split; auto. apply @is_derive_const.
Qed.
Lemma minC theta : mn_input (M2 theta) rs2 XC.
Proof. apply inp2. Qed.

(** * one point, one iteration *)
Lemma minit theta a b r e x : a <= x <= b -> exists o, mn_init (M1 theta a b true) (ref1 r e) [[x]] = Ok o /\ primal_of (K1 Deltap a b) (w_state o) = [[x]] /\ s_Y (w_state o) = [[x]] /\ reference_set (w_ref o) = [[r]].
Proof.
  intros H. unfold mn_init. cbn [map]. change (k_xl (n_base (M1 theta a b true))) with [a]. change (k_xu (n_base (M1 theta a b true))) with [b]. rewrite clip1 by lra.
  eexists. split; [reflexivity|]. repeat split.
Qed.
Lemma two_objects (M : mn_cfg) (P : mn_posed M) rs X0 o : mn_input M rs X0 -> mn_init M rs X0 = Ok o -> exists q, mn_objects M rs X0 [o; q].
Proof.
  intros HI Ho. destruct (mobjects_total M P rs X0 1 HI) as (l & HO & HL). destruct l as [|o' [|q [|]]]; cbn in HL; try lia.
  destruct HO as [E HT]. rewrite Ho in E. injection E as <-. exists q. split; auto.
Qed.
Lemma best1 (S : list (list R)) r y T : S = [r] -> best_match S [y] T -> T = [r].
Proof.
  intros -> (L & (rest & HP) & _). apply Permutation_sym, Permutation_length_1_inv in HP. cbn in L. destruct T as [|u [|]]; cbn in L; try lia. cbn in HP. injection HP as -> ->. reflexivity.
Qed.
Lemma sqd1 x r : sqd [x] [r] = (x - r) ^ 2.
Proof. unfold sqd. cbn. ring. Qed.
Lemma discr1 theta a b r x v : discrepancy (M1 theta a b true) [[r]] [[x]] v -> v = 1 / 4 + 2 - 2 * exp (- theta * (x - r) ^ 2).
Proof.
  unfold discrepancy. cbn [n_match M1 n_kern]. unfold MMDM, mean_k, pairs. change (k_ (rbf_kern theta)) with (rbf theta). unfold rbf. cbn [map combine fst snd length].
  rewrite !sqnorm_sqd, !sqd1. replace ((x - x) ^ 2) with 0 by ring. rewrite Rmult_0_r, exp_0. unfold sumR. cbn [fold_right map INR]. intros ->. rewrite ?Rplus_0_r. field.
Qed.
Lemma first1 theta a b r x : 0 < theta -> a <= x <= b -> let z := 2 * theta * (x - r) ^ 2 in 1 < z \/ z <= 1 / 4 ->
  exists o q, mn_objects (M1 theta a b true) (ref1 r 0) [[x]] [o; q] /\ primal_of (K1 Deltap a b) (w_state o) = [[x]] /\ s_Y (w_state o) = [[x]] /\ reference_set (w_ref o) = [[r]] /\
    let x' := r + z / (z - 1) * (x - r) in primal_of (K1 Deltap a b) (w_state q) = [[x']] /\ s_Y (w_state q) = [[x']] /\ reference_set (w_ref q) = [[r]].
Proof.
  intros Ht Hx z Hz. destruct (minit theta a b r 0 x Hx) as (o & Ho & Ex & Hy & Hr). pose proof (posed1 theta a b true) as P. pose proof (min1 theta a b r 0 x) as HI.
  destruct (two_objects _ P _ _ o HI Ho) as (q & HO). exists o, q. split; auto. split; auto. split; auto. split; auto.
  pose proof (point1 theta a b Ht) as PP.
  destruct (run_next _ P 1 theta PP (ref1 r 0) [[x]] _ 0 o q eq_refl HI HO eq_refl eq_refl) as (x0 & t & x' & A & A' & Et & Lt & _ & _ & Hs).
  destruct (at_facts _ P 1 theta PP _ _ A) as (_ & E0 & _). destruct (at_facts _ P 1 theta PP _ _ A') as (_ & Ex' & Ey' & _).
  change (n_base (M1 theta a b true)) with (K1 Deltap a b) in E0, Ex'. assert (x0 = [x]) as -> by congruence.
  destruct (mobjects_matched _ P (ref1 r 0) [[x]] _ 0 o q [0] HI HO eq_refl eq_refl eq_refl eq_refl) as (T1 & T2 & lg & B1 & L1 & PM & D1 & D2 & _). rewrite Hy in B1. apply (best1 _ [r]) in B1; [|exact Hr]. subst T1.
  assert (T2 = [t]) as -> by (rewrite Et in PM; apply Permutation_length_1_inv in PM; auto).
  assert (t = [r]) as ->.
  { destruct (Classical_Prop.classic (mmd_moves 0 (s_Y (w_state o)) [[r]] (map (firstn (c_nvar (k_prob (n_base (M1 theta a b true))))) (w_step o)) 0)) as [C|C].
    - destruct (D1 0%nat ltac:(cbn; lia) C) as [L2 D]. cbn [nth length] in *. destruct t as [|t0 [|]]; cbn in L2; try lia. specialize (D 0%nat). cbn in D. f_equal. lra.
    - specialize (D2 0%nat ltac:(cbn; lia) C). cbn in D2. auto. }
  unfold z_of, q_of, z_of in Hs. rewrite !sqd1 in Hs. fold z in Hs. destruct (Hs Hz) as [_ Hs']. specialize (Hs' 0%nat ltac:(lia)). cbn [nth] in Hs'.
  destruct A' as [Lx' _]. destruct x' as [|y [|]]; cbn in Lx'; try lia. cbn [nth] in Hs'.
  assert (y = r + z / (z - 1) * (x - r)) as -> by lra. auto.
Qed.
(** the logged value is not that of the population it is logged with: 0.25 goes to -1/28 for the target 0 *)
Lemma stale : exists o q, mn_objects (M1 1 0 1 true) (ref1 0 0) [[0.25]] [o; q] /\
  forall T v, targets (M1 1 0 1 true) (reference_set (w_ref q)) (s_Y (w_state q)) T -> discrepancy (M1 1 0 1 true) T (s_Y (w_state q)) v -> w_value q <> Some v.
Proof.
  destruct (first1 1 0 1 0 0.25 ltac:(lra) ltac:(lra)) as (o & q & HO & Ex & Hy & Hr & Ex' & Hy' & Hr'); [right; lra|].
  exists o, q. split; auto. intros T v HT Hv. pose proof (posed1 1 0 1 true) as P. pose proof (min1 1 0 1 0 0 0.25) as HI.
  destruct (mobjects_values _ P _ [[0.25]] _ 0 o q HI HO eq_refl eq_refl) as (T0 & v0 & E & HT0 & Hv0). rewrite Hy in *. apply (best1 _ [0]) in HT0; [|exact Hr]. subst T0. apply discr1 in Hv0.
  rewrite Hy' in HT, Hv. apply (best1 _ [0]) in HT; [|exact Hr']. subst T. apply discr1 in Hv. rewrite E. intros C. injection C as C. rewrite Hv, Hv0 in C.
  match type of C with _ = _ - 2 * exp ?u => assert (exp (- (1) * (0.25 - 0) ^ 2) = exp u) as C' by lra end. apply exp_inv in C'. lra.
Qed.
(** a point of the box leaves it: 1 goes to 2 for the target 0 *)
Lemma leaves : exists o q, mn_objects (M1 1 0 1 true) (ref1 0 0) [[1]] [o; q] /\ primal_of (K1 Deltap 0 1) (w_state o) = [[1]] /\ primal_of (K1 Deltap 0 1) (w_state q) = [[2]].
Proof.
  destruct (first1 1 0 1 0 1 ltac:(lra) ltac:(lra)) as (o & q & HO & Ex & Hy & Hr & Ex' & Hy' & Hr'); [left; lra|].
  exists o, q. split; auto. split; auto. rewrite Ex'. do 2 f_equal. lra.
Qed.
