(** One point, the identity and the Gaussian kernel: what the iterations of MMDNewton do. *)
From Coq Require Import List Arith Bool Reals ZArith Lia Lra Permutation.
From Verif Require Import Num Exn ListAux MiscModel StateModel StateSpec StateProof NewtonModel NewtonProof NewtonBox NewtonPop RefModel RefSpec RefProof RefTop RefShift HVDSpec HVTop HVXModel HVXSpec HVXProof HVXTop IndModel IndSpec IndProof IndTop MMDModel MMDSpec MMDSym MMDTop StepModel StepSpec StepProof ShiftModel ShiftSpec ShiftMain StepTop StepMain StepIter StepLast IterModel IterSpec IterProof IterMain IterTotal IterConv IterAffine IterTop HvnSpec MnModel MnSpec MnProof MnMain MnTop.
From Verif Require PropsStep.
Import ListNotations.
Open Scope R_scope.

Lemma sqd_prod n : forall x y, length x = n -> length y = n -> sqd x y = sumn n (fun k => (nth k x 0 - nth k y 0) * (nth k x 0 - nth k y 0)).
Proof.
  induction n as [|n IH]; intros x y Lx Ly. destruct x, y; try discriminate. reflexivity.
  destruct x as [|a x], y as [|b y]; try discriminate. cbn [sqd]. rewrite (StepProof.sumn_first n). cbn [nth]. rewrite (IH x y) by (simpl in *; lia). ring.
Qed.
Lemma apart_edist x : forall y, length x = length y -> apart x y = edist x y.
Proof.
  unfold apart, edist. intros y L. f_equal. revert y L. induction x as [|a x IH]; intros [|b y] L; try discriminate; cbn [combine fold_right sqd fst snd]; auto. rewrite IH by (simpl in L; lia). ring.
Qed.
Lemma sq_sumn v : forall n, length v = n -> sumR (map (fun a => a ^ 2) v) = sumn n (fun k => nth k v 0 * nth k v 0).
Proof.
  induction v as [|a v IH]; intros [|n] L; try discriminate. reflexivity. cbn [map sumR]. rewrite (StepProof.sumn_first n). cbn [nth]. rewrite (IH n) by (simpl in L; lia). ring.
Qed.
Lemma euclid_scaled n c v w : length v = n -> length w = n -> (forall k, (k < n)%nat -> nth k v 0 = c * nth k w 0) -> euclid v = Rabs c * euclid w.
Proof.
  intros Lv Lw H. unfold euclid. rewrite (sq_sumn v n Lv), (sq_sumn w n Lw). rewrite <- sqrt_Rsqr_abs, <- sqrt_mult. f_equal.
  - rewrite <- sumn_scal. apply sumn_ext. intros k Hk. rewrite H by auto. unfold Rsqr. ring.
  - apply Rle_0_sqr.
  - apply sumn_sq_nonneg.
Qed.

Lemma sumn_mono n f g : (forall i, (i < n)%nat -> f i <= g i) -> sumn n f <= sumn n g.
Proof. induction n as [|n IH]; intros H; cbn [sumn]. lra. assert (f n <= g n) by (apply H; lia). assert (sumn n f <= sumn n g) by (apply IH; intros; apply H; lia). lra. Qed.

(** * the numbers *)
Lemma grow z : 1 < z -> let q := z / (z - 1) in 1 < q /\ z * (q * q) >= z + 2 /\ q * exp (- (z * (q * q)) / 2) <= exp (- z / 2) * exp (- 1).
Proof.
  intros Hz q. assert (Hd : 0 < z - 1) by lra. assert (Eq : q * (z - 1) = z) by (unfold q; field; lra).
  assert (Q1 : 1 < q) by nra. assert (Ez : z * (q - 1) = q) by nra. split; auto. split.
  - assert (z * (q * q) - z = q * (q + 1)) by (replace (z * (q * q) - z) with (z * (q - 1) * (q + 1)) by ring; rewrite Ez; auto). nra.
  - rewrite <- exp_plus. assert (E : z * (q * q) = z + q * (q + 1)) by (replace (z * (q * q)) with (z + z * (q - 1) * (q + 1)) by ring; rewrite Ez; auto).
    rewrite E. replace (- (z + q * (q + 1)) / 2) with (- z / 2 + - (q * (q + 1)) / 2) by field.
    rewrite !exp_plus. assert (H1 : q <= exp (q - 1)). { destruct (Req_dec q 1) as [->|Hne]. rewrite Rminus_diag_eq, exp_0 by auto. lra. left. replace q with (1 + (q - 1)) at 1 by ring. apply exp_ineq1. lra. }
    pose proof (exp_pos (- z / 2)) as P1. pose proof (exp_pos (- (q * (q + 1)) / 2)) as P2.
    assert (H2 : exp (q - 1) * exp (- (q * (q + 1)) / 2) <= exp (- 1)). { rewrite <- exp_plus. destruct (Req_dec (q - 1 + - (q * (q + 1)) / 2) (-1)) as [->|Hne]. lra. left. apply exp_increasing. nra. }
    assert (H3 : q * exp (- (q * (q + 1)) / 2) <= exp (q - 1) * exp (- (q * (q + 1)) / 2)) by (apply Rmult_le_compat_r; lra).
    replace (q * (exp (- z / 2) * exp (- (q * (q + 1)) / 2))) with (exp (- z / 2) * (q * exp (- (q * (q + 1)) / 2))) by ring. apply Rmult_le_compat_l; lra.
Qed.
Lemma exp_m1 : exp (- 1) < 1 - / 10 ^ 6.
Proof.
  replace (exp (- 1)) with (/ exp 1) by (rewrite <- exp_Ropp; f_equal; lra). assert (H : 1 + 1 < exp 1) by (apply exp_ineq1; lra). assert (/ exp 1 < / 2) by (apply Rinv_lt_contravar; lra). assert (/ 10 ^ 6 < / 2) by (apply Rinv_lt_contravar; lra). lra.
Qed.
Lemma shrink z : 0 <= z <= 1 / 4 -> let q := z / (1 - z) in 0 <= q <= 1 / 3 /\ q * exp (- (z * (q * q)) / 2) <= exp (- z / 2) * (1 - / 10 ^ 6).
Proof.
  intros Hz q. assert (Eq : q * (1 - z) = z) by (unfold q; field; lra). assert (Q0 : 0 <= q) by (apply Rmult_le_pos; [lra|left; apply Rinv_0_lt_compat; lra]). assert (Q1 : q <= 1 / 3) by nra. split; auto.
  assert (H1 : exp (- (z * (q * q)) / 2) <= 1). { rewrite <- exp_0. destruct (Req_dec (- (z * (q * q)) / 2) 0) as [->|Hne]. lra. left. apply exp_increasing. nra. }
  assert (H2 : 1 + - z / 2 <= exp (- z / 2)). { destruct (Req_dec z 0) as [->|Hne]. replace (- 0 / 2) with 0 by field. rewrite exp_0. lra. left. apply exp_ineq1. lra. }
  pose proof (exp_pos (- (z * (q * q)) / 2)). assert (/ 10 ^ 6 < / 4) by (apply Rinv_lt_contravar; lra).
  assert (q * exp (- (z * (q * q)) / 2) <= 1 / 3) by nra. assert (7 / 8 <= exp (- z / 2)) by lra. nra.
Qed.

Section Dyn.
Variable M : mn_cfg.
Hypothesis P : mn_posed M.
Variable n : nat.
Variable theta : R.
Hypothesis PP : point_problem M n theta.
Let K := n_base M.
Let W : well_posed K := np_problem M P.
Let OO : oracles_ok K := np_oracles M P.

Lemma free : is_constrained K = false.
Proof using PP. destruct (pp_free M n theta PP) as [H1 H2]. unfold is_constrained. fold K in H1, H2. rewrite H1, H2. reflexivity. Qed.
Lemma free_d : dim_d K = 0%nat.
Proof using P PP. apply (unconstrained_dim K (IterTop.wp_counts K W)). apply free. Qed.
Lemma dim_n : dim K = n /\ dim_p K = n.
Proof using P PP. unfold IterProof.dim. rewrite free_d. unfold dim_p. fold K. pose proof (pp_nvar M n theta PP) as E. fold K in E. rewrite E. lia. Qed.
(** a state with one point *)
Definition at_point (s : pstate) (x : list R) : Prop := length x = n /\ pop K 1 [x] /\ holds K s [x].
Lemma at_facts s x : at_point s x -> s_X s = [x] /\ primal_of K s = [x] /\ s_Y s = [x] /\ (forall i k, (i < n)%nat -> (k < n)%nat -> Jat M s 0 i k = if (i =? k)%nat then 1 else 0) /\
  (forall a k l, (a < n)%nat -> (k < n)%nat -> (l < n)%nat -> Hat M s 0 a k l = 0).
Proof using P PP.
  intros (Lx & HP & H). destruct dim_n as [_ Dn]. assert (Ep : pr (k_prob K) x = x) by (unfold pr; apply firstn_all2; change (c_nvar (k_prob K)) with (dim_p K); lia).
  pose proof (holds_X _ _ _ H) as EX. split; auto. split. unfold primal_of, primal. rewrite EX. cbn [map]. change (firstn _ x) with (pr (k_prob K) x). rewrite Ep. auto.
  split. { unfold holds, data in H. injection H as E1 E2 _ _ _ _ _. rewrite E2. cbn [map]. rewrite Ep. pose proof (pp_func M n theta PP x Lx) as Ef. fold K in Ef. rewrite Ef. auto. }
  split; intros; unfold Jat, Hat; rewrite EX; cbn [nth]; fold K; rewrite Ep; [apply (pp_jac M n theta PP)|apply (pp_hess M n theta PP)]; auto.
Qed.
Definition z_of (x t : list R) : R := 2 * theta * sqd x t.
Definition kap (x t : list R) : R := 4 * theta * exp (- theta * sqd x t).
Lemma grad_point s x t : at_point s x -> length t = n -> exists g, grad_rows M 1 s [t] = [g] /\ length g = n /\ forall k, (k < n)%nat -> nth k g 0 = kap x t * (nth k x 0 - nth k t 0).
Proof using P PP.
  intros H Lt. destruct (at_facts s x H) as (EX & EP & EY & EJ & _). destruct dim_n as [_ Dn]. fold K in Dn. pose proof (pp_nobj M n theta PP) as Em. fold K in Em.
  unfold grad_rows. fold K. rewrite Dn. eexists. split; [reflexivity|]. split. rewrite map_length, seq_length; auto. intros k Hk. rewrite (nth_map_default _ _ _ 0%nat) by (rewrite seq_length; auto). rewrite seq_nth by auto. cbn [Nat.add].
  unfold gradm. fold K. rewrite Em. rewrite (sumn_single n k); auto.
  2:{ intros a Ha Hne. rewrite EJ by auto. apply Nat.eqb_neq in Hne. rewrite Hne. ring. }
  rewrite EJ, Nat.eqb_refl by auto. unfold dYt. rewrite (pp_match M n theta PP), EY. unfold mmdm_dY. cbn [length sumn row nth INR]. rewrite !(pp_dx M n theta PP). unfold kap. field.
Qed.
Lemma hess_point s x t : at_point s x -> length t = n -> forall a b, (a < n)%nat -> (b < n)%nat ->
  ent (hess_rows M 1 s [t]) a b = kap x t * ((if (a =? b)%nat then 1 else 0) - 2 * theta * (nth a x 0 - nth a t 0) * (nth b x 0 - nth b t 0)).
Proof using P PP.
  intros H Lt a b Ha Hb. destruct (at_facts s x H) as (EX & EP & EY & EJ & EH). destruct dim_n as [_ Dn]. fold K in Dn. pose proof (pp_nobj M n theta PP) as Em. fold K in Em.
  unfold hess_rows, ent. fold K. rewrite Dn. pose proof (flat_nth 1 n (hessm M s [t]) 0 a 0 b 0 ltac:(lia) ltac:(lia) Ha Hb) as E. cbn [Nat.mul Nat.add] in E. rewrite E.
  unfold hessm, assemble. fold K. rewrite Em. rewrite Nat.eqb_refl. rewrite (sumn_single n a); auto.
  2:{ intros i Hi Hne. apply sumn_zero. intros l Hl. rewrite EJ by auto. apply Nat.eqb_neq in Hne. rewrite Hne. ring. }
  rewrite (sumn_single n b); auto.
  2:{ intros i Hi Hne. rewrite (EJ i b) by auto. apply Nat.eqb_neq in Hne. rewrite Hne. ring. }
  rewrite (sumn_zero n). 2:{ intros i Hi. rewrite EH by auto. ring. }
  rewrite !EJ, !Nat.eqb_refl by auto. unfold dY2t. rewrite (pp_match M n theta PP), EY. unfold mmdm_dY2. cbn [Nat.eqb length sumn row nth INR]. rewrite !(pp_dx2 M n theta PP). unfold kap. destruct (a =? b)%nat; field.
Qed.
Lemma R_point s x t : at_point s x -> length t = n -> exists g, mn_R M s (grad_rows M 1 s [t]) = Ok [g] /\ length g = n /\ (forall k, (k < n)%nat -> nth k g 0 = kap x t * (nth k x 0 - nth k t 0)) /\
  norm (concat [g]) = kap x t * edist x t.
Proof using P PP.
  intros H Lt. destruct (grad_point s x t H Lt) as (g & E & Lg & Eg). exists g. destruct (at_facts s x H) as (EX & _). unfold mn_R. fold K. rewrite free. cbn [compute_R bind fst]. unfold points_of. rewrite EX, E. cbn. split; auto. split; auto. split; auto.
  rewrite app_nil_r. rewrite norm_euclid. unfold euclid, edist. rewrite (sq_sumn g n Lg). destruct H as (Lx & _). rewrite (sqd_prod n x t Lx Lt).
  assert (Hk : 0 <= kap x t). { unfold kap. pose proof (pp_theta M n theta PP). pose proof (exp_pos (- theta * sqd x t)). nra. }
  rewrite <- (sqrt_square (kap x t)) by auto. rewrite <- sqrt_mult. 2: nra. 2: apply sumn_sq_nonneg. f_equal. rewrite <- sumn_scal. apply sumn_ext. intros k Hk'. rewrite Eg by auto. ring.
Qed.
(** the Newton step *)
Lemma step_point s x t st Rm : at_point s x -> length t = n -> z_of x t <> 1 ->
  mmd_step (k_solve K) (k_lstsq K) (k_chol K) (dim_p K) (dim_d K) (is_constrained K) (k_pre K) (hess_rows M 1 s [t]) (points_of K s (grad_rows M 1 s [t])) = Ok (st, Rm) ->
  exists d, st = [d] /\ length d = n /\ forall k, (k < n)%nat -> nth k d 0 = / (z_of x t - 1) * (nth k x 0 - nth k t 0).
Proof using P PP.
  intros H Lt Hz E. destruct (grad_point s x t H Lt) as (g & Eg & Lg & Hg). destruct dim_n as [_ Dn]. pose proof (at_facts s x H) as (EX & _). pose proof H as (Lx & HP & HH).
  pose proof (hess_point s x t H Lt) as Hh. set (Hs := hess_rows M 1 s [t]) in *. set (ps := points_of K s (grad_rows M 1 s [t])) in *.
  assert (Eps : exists p, ps = [p] /\ pt_grad p = g). { unfold ps, points_of. rewrite EX, Eg. cbn. eexists. split; reflexivity. }
  destruct Eps as (p & Eps & Epg). rewrite free in E.
  destruct (PropsStep.C72_mmd_unconstrained (k_solve K) (k_lstsq K) (k_chol K) (oo_solve K OO) (oo_lstsq K OO) (dim_p K) (dim_d K) (k_pre K) Hs ps) as (st' & E' & M1 & L1).
  { rewrite Eps. simpl. lia. } { intros p' Hp'. rewrite Eps in Hp'. destruct Hp' as [<-|[]]. rewrite Epg, Dn. auto. } { rewrite Eps. apply flat_matrix. }
  rewrite E' in E. injection E as <- _. rewrite Eps in M1, L1. rewrite Dn in M1, L1. pose proof (pp_pre M n theta PP) as Ep. fold K in Ep. rewrite Ep in L1.
  change (StepDpn.dpn_A (k_chol K) false Hs) with Hs in L1.
  set (u := fun k => nth k x 0 - nth k t 0) in *. assert (Ks : 0 < kap x t). { unfold kap. pose proof (pp_theta M n theta PP). pose proof (exp_pos (- theta * sqd x t)). nra. }
  assert (Ez : z_of x t = 2 * theta * sumn n (fun k => u k * u k)) by (unfold z_of, u; rewrite (sqd_prod n x t Lx Lt); auto).
  assert (Hkkt : forall d, length d = n -> linear_kkt false n 0 Hs [p] [d] <-> forall a, (a < n)%nat -> nth a d 0 - 2 * theta * u a * sumn n (fun b => u b * nth b d 0) = - u a).
  { intros d Ld.
    assert (Hs1 : forall a, (a < n)%nat -> sumn (length [p]) (fun j => sumn n (fun b => ent Hs (0 * n + a) (j * n + b) * ent [d] j b)) = kap x t * (nth a d 0 - 2 * theta * u a * sumn n (fun b => u b * nth b d 0))).
    { intros a Ha. cbn [length sumn Nat.mul Nat.add]. rewrite Rplus_0_l. rewrite (sumn_ext n _ (fun b => kap x t * (if (b =? a)%nat then nth a d 0 else 0) + - (kap x t * (2 * theta * u a)) * (u b * nth b d 0))).
      2:{ intros b Hb. rewrite Hh by auto. unfold ent, u. cbn [nth]. rewrite Nat.eqb_sym. destruct (Nat.eqb_spec b a) as [->|]; ring. }
      rewrite sumn_plus, sumn_scal, sumn_scal. rewrite (sumn_single n a (fun b => if (b =? a)%nat then nth a d 0 else 0)); auto. rewrite Nat.eqb_refl. ring. intros b Hb Hne. apply Nat.eqb_neq in Hne. rewrite Hne. auto. }
    assert (Hl : forall a, (a < n)%nat -> lagrangian 0 p a = kap x t * u a). { intros a Ha. unfold lagrangian, asum. cbn [sumn]. rewrite Epg, Hg by auto. unfold u. ring. }
    split.
    - intros HK a Ha. destruct (HK 0%nat p eq_refl) as [HK1 _]. specialize (HK1 a Ha). rewrite Hs1, Hl in HK1 by auto. unfold asum in HK1. cbn [sumn] in HK1. apply (Rmult_eq_reg_l (kap x t)); [|lra]. lra.
    - intros HK i p' Hp'. destruct i as [|i]; [|destruct i; discriminate]. injection Hp' as <-. split; [|intros k Hk; lia]. intros a Ha. rewrite Hs1, Hl, (HK a Ha) by auto. unfold asum. cbn [sumn]. ring. }
  destruct M1 as [LM RM]. cbn [length] in LM. destruct st' as [|d st']; [discriminate|]. destruct st'; [|discriminate]. exists d. split; auto. assert (Ld : length d = n) by (apply RM; simpl; auto). split; auto.
  assert (Hk1 : linear_kkt false n 0 Hs [p] [d]).
  { apply L1. exists [map (fun k => / (z_of x t - 1) * u k) (seq 0 n)]. split. split; auto. intros r [<-|[]]. rewrite map_length, seq_length; auto.
    apply Hkkt. rewrite map_length, seq_length; auto. assert (Hn : forall b, (b < n)%nat -> nth b (map (fun k => / (z_of x t - 1) * u k) (seq 0 n)) 0 = / (z_of x t - 1) * u b).
    { intros b Hb. rewrite (nth_map_default _ _ _ 0%nat) by (rewrite seq_length; auto). rewrite seq_nth by auto. auto. }
    intros a Ha. rewrite Hn by auto. rewrite (sumn_ext n _ (fun b => / (z_of x t - 1) * (u b * u b))). 2:{ intros b Hb. rewrite Hn by auto. ring. }
    rewrite sumn_scal. replace (/ (z_of x t - 1) * u a - 2 * theta * u a * (/ (z_of x t - 1) * sumn n (fun b => u b * u b))) with (/ (z_of x t - 1) * u a * (1 - 2 * theta * sumn n (fun b => u b * u b))) by ring. rewrite <- Ez. field. lra. }
  rewrite (Hkkt d Ld) in Hk1. set (sg := sumn n (fun b => u b * nth b d 0)) in *.
  assert (Esg : sg - z_of x t * sg = - sumn n (fun b => u b * u b)).
  { replace (- sumn n (fun b => u b * u b)) with (sumn n (fun b => u b * (- u b))). 2:{ rewrite (sumn_ext n _ (fun b => (-1) * (u b * u b))). rewrite sumn_scal. ring. intros; ring. }
    rewrite (sumn_ext n (fun b => u b * (- u b)) (fun b => u b * nth b d 0 + (- (2 * theta) * sg) * (u b * u b))). 2:{ intros b Hb. rewrite <- (Hk1 b Hb). ring. }
    rewrite sumn_plus, sumn_scal. fold sg. rewrite Ez. ring. }
  intros k Hk. specialize (Hk1 k Hk). assert (E2 : 2 * theta * sg * (1 - z_of x t) = - z_of x t). { replace (2 * theta * sg * (1 - z_of x t)) with (2 * theta * (sg - z_of x t * sg)) by ring. rewrite Esg, Ez. ring. }
  assert (E3 : 2 * theta * sg = z_of x t / (z_of x t - 1)). { apply (Rmult_eq_reg_r (1 - z_of x t)); [|lra]. rewrite E2. field. lra. }
  replace (nth k d 0) with (- u k + u k * (2 * theta * sg)) by (rewrite <- Hk1; ring). rewrite E3. fold (u k). field. lra.
Qed.

(** * one iteration *)
Definition q_of (x t : list R) : R := z_of x t / (z_of x t - 1).
Lemma norm_ratio x t x' : length x = n -> length t = n -> length x' = n -> (forall k, (k < n)%nat -> nth k x' 0 - nth k t 0 = q_of x t * (nth k x 0 - nth k t 0)) ->
  sqd x' t = q_of x t * q_of x t * sqd x t /\ edist x' t = Rabs (q_of x t) * edist x t /\ z_of x' t = z_of x t * (q_of x t * q_of x t).
Proof using.
  intros Lx Lt Lx' H. assert (E : sqd x' t = q_of x t * q_of x t * sqd x t). { rewrite (sqd_prod n x' t Lx' Lt), (sqd_prod n x t Lx Lt), <- sumn_scal. apply sumn_ext. intros k Hk. rewrite H by auto. ring. }
  split; auto. split. unfold edist. rewrite E. rewrite sqrt_mult by (try apply sqd_nonneg; apply Rle_0_sqr). fold (Rsqr (q_of x t)). rewrite sqrt_Rsqr_abs. auto. unfold z_of. rewrite E. ring.
Qed.
Lemma accept_full x t x' : length x = n -> length t = n -> length x' = n -> (1 < z_of x t \/ z_of x t <= 1 / 4) ->
  (forall k, (k < n)%nat -> nth k x' 0 - nth k t 0 = q_of x t * (nth k x 0 - nth k t 0)) ->
  kap x' t * edist x' t <= (1 - / 10 ^ 6) * (kap x t * edist x t) /\ (1 < z_of x t -> kap x' t * edist x' t <= exp (-1) * (kap x t * edist x t)).
Proof using PP.
  intros Lx Lt Lx' Hz H. destruct (norm_ratio x t x' Lx Lt Lx' H) as (_ & E2 & E3). assert (Ht := pp_theta M n theta PP).
  assert (Ek : forall y, kap y t = 4 * theta * exp (- z_of y t / 2)). { intros y. unfold kap, z_of. do 2 f_equal. field. }
  assert (He : 0 <= edist x t) by apply sqrt_pos. assert (Z0 : 0 <= z_of x t) by (unfold z_of; pose proof (sqd_nonneg x t); nra).
  rewrite !Ek, E2, E3.
  assert (Hr : forall b r, 0 <= b -> Rabs (q_of x t) * exp (- (z_of x t * (q_of x t * q_of x t)) / 2) <= exp (- z_of x t / 2) * b -> 
    4 * theta * exp (- (z_of x t * (q_of x t * q_of x t)) / 2) * (Rabs (q_of x t) * r) <= b * (4 * theta * exp (- z_of x t / 2) * r) \/ r < 0).
  { intros b r Hb Hle. destruct (Rlt_dec r 0); auto. left. replace (4 * theta * exp (- (z_of x t * (q_of x t * q_of x t)) / 2) * (Rabs (q_of x t) * r)) with (4 * theta * r * (Rabs (q_of x t) * exp (- (z_of x t * (q_of x t * q_of x t)) / 2))) by ring.
    replace (b * (4 * theta * exp (- z_of x t / 2) * r)) with (4 * theta * r * (exp (- z_of x t / 2) * b)) by ring. apply Rmult_le_compat_l; auto. nra. }
  assert (H1 : 1 < z_of x t -> Rabs (q_of x t) * exp (- (z_of x t * (q_of x t * q_of x t)) / 2) <= exp (- z_of x t / 2) * exp (- 1)).
  { intros Hz1. destruct (grow _ Hz1) as (Q1 & _ & Q3). fold (q_of x t) in *. rewrite Rabs_right by lra. auto. }
  pose proof exp_m1 as Hm. pose proof (exp_pos (-1)) as Hm0. pose proof (exp_pos (- z_of x t / 2)) as Hp.
  assert (I0 : 0 <= 1 - / 10 ^ 6) by lra.
  split.
  - destruct (Hr (1 - / 10 ^ 6) (edist x t) I0) as [|]; try lra. destruct Hz as [Hz|Hz]. specialize (H1 Hz). nra.
    destruct (shrink (z_of x t) ltac:(lra)) as (Q1 & Q2). assert (Eq : Rabs (q_of x t) = z_of x t / (1 - z_of x t)). { unfold q_of. replace (z_of x t / (z_of x t - 1)) with (- (z_of x t / (1 - z_of x t))) by (field; lra). rewrite Rabs_Ropp, Rabs_right by lra. auto. }
    replace (q_of x t * q_of x t) with (Rabs (q_of x t) * Rabs (q_of x t)) by (rewrite <- Rabs_mult; apply Rabs_right; nra). rewrite Eq. auto.
  - intros Hz1. destruct (Hr (exp (-1)) (edist x t) ltac:(lra) (H1 Hz1)) as [|]; lra.
Qed.
Lemma iter_point o o1 u x : facts M 1 o o1 u -> at_point (w_state o) x -> exists t, reference_set (p_3 u) = [t] /\ reference_set (p_4 u) = [t] /\ reference_set (p_2 u) = [t] /\ length t = n /\
  norm (concat (p_R u)) = kap x t * edist x t /\
  (z_of x t <> 1 -> exists d, p_st u = [d] /\ length d = n /\ (forall k, (k < n)%nat -> nth k d 0 = / (z_of x t - 1) * (nth k x 0 - nth k t 0))) /\
  (1 < z_of x t \/ z_of x t <= 1 / 4 -> p_a u = 1 /\ exists x', at_point (p_s u) x' /\ forall k, (k < n)%nat -> nth k x' 0 - nth k t 0 = q_of x t * (nth k x 0 - nth k t 0)).
Proof using P PP.
  intros F H. pose proof (pp_match M n theta PP) as Hm. pose proof (pp_nobj M n theta PP) as Em. destruct (f_reads3 _ _ _ _ _ F) as (A3 & _ & _ & P3 & _). pose proof (proj1 (f_shift _ _ _ _ _ F)) as A2. specialize (P3 A2).
  pose proof (after_perm M _ _ _ _ F) as P4. unfold after in A3. rewrite Hm in A3. destruct (matched_ref _ _ _ A3) as [L3 R3].
  destruct (reference_set (p_3 u)) as [|t T3] eqn:ET; [discriminate|]. destruct T3; [|discriminate]. assert (Lt : length t = n) by (rewrite <- Em; apply R3; simpl; auto).
  assert (E2 : reference_set (p_2 u) = [t]). { apply Permutation_length_1_inv. exact P3. } rewrite E2 in P4. apply Permutation_sym, Permutation_length_1_inv in P4.
  exists t. split; auto. split; auto. split; auto. split; auto. pose proof (f_R _ _ _ _ _ F) as FR. pose proof (f_step _ _ _ _ _ F) as FS. rewrite ET in FR, FS. destruct (R_point _ x t H Lt) as (g & EG & Lg & Hg & EN). rewrite EG in FR. injection FR as FR. rewrite <- FR.
  split; auto. split. { intros Hz. apply (step_point _ x t _ _ H Lt Hz FS). }
  intros Hz. destruct (step_point _ x t _ _ H Lt ltac:(lra) FS) as (d & Ed & Ld & Hd). destruct H as (Lx & HP & HH). pose proof (holds_X _ _ _ HH) as EX.
  (* the population after a step of size 1 *)
  set (x' := zip_with (fun a b => a + 1 * b) x d).
  assert (Ex' : mmd_update 1 (s_X (w_state o)) (p_st u) = [x']). { rewrite EX, Ed. reflexivity. }
  assert (Lx' : length x' = n) by (unfold x'; rewrite NewtonProof.zip_with_length; congruence).
  assert (Hx' : forall k, (k < n)%nat -> nth k x' 0 - nth k t 0 = q_of x t * (nth k x 0 - nth k t 0)). { intros k Hk. unfold x'. rewrite (zip_with_nth _ _ _ _ 0 0) by lia. rewrite Hd by auto. unfold q_of. field. lra. }
  destruct dim_n as [Dn _].
  assert (P1 : pop K 1 [x']) by (split; auto; intros y [<-|[]]; congruence).
  assert (Ha : p_a u = 1).
  { destruct (f_size _ _ _ _ _ F) as [(_ & -> & _)|(_ & k & Hk & -> & HR & _ & Hf)]; auto. destruct k as [|k]; [reflexivity|]. exfalso.
    destruct (Hf 0%nat ltac:(lia)) as (r1 & R1 & s' & S & v & E & H' & [PS _] & HT & (Rm & ER & Ev) & HA). change ((/ 2) ^ 0) with 1 in *. rewrite Ex' in H'.
    assert (Hs' : at_point s' x') by (split; auto). destruct R1 as (A1 & _ & _ & PR & _). assert (A3' : after M 1 (p_3 u)) by (unfold after; rewrite Hm; auto). specialize (PR A3'). rewrite ET in PR. apply Permutation_sym, Permutation_length_1_inv in PR. rewrite PR in ER.
    destruct (R_point s' x' t Hs' Lt) as (g' & EG' & _ & _ & EN'). unfold grad_rows in EG'. rewrite EG' in ER. injection ER as <-. rewrite EN' in Ev. rewrite Ev in HA. rewrite <- FR, EN in HA. apply armijo_fails in HA.
    destruct (accept_full x t x' Lx Lt Lx' Hz Hx') as [HB _]. rewrite Rmult_1_r in HA. lra. }
  split; auto. exists x'. split; auto. split; auto. split; auto. pose proof (f_holds _ _ _ _ _ F) as FH. rewrite Ha, Ex' in FH. exact FH.
Qed.

(** * runs *)
Lemma run_point rs X0 l j p : length X0 = 1%nat -> mn_input M rs X0 -> mn_objects M rs X0 l -> nth_error l j = Some p -> exists x, at_point (w_state p) x.
Proof using P PP.
  intros L1 Hi Ho Hp. destruct (mobjects_good M P rs X0 l j p Hi Ho Hp) as [((X & HP & H) & _) _]. rewrite L1 in HP. destruct HP as [LX RX]. destruct X as [|x X]; [discriminate|]. destruct X; [|discriminate]. exists x. destruct dim_n as [Dn _]. 
  assert (Lx : length x = n) by (rewrite <- Dn; apply RX; simpl; auto). split; auto. split; auto. split; auto.
Qed.
Lemma run_next rs X0 l j p q : length X0 = 1%nat -> mn_input M rs X0 -> mn_objects M rs X0 l -> nth_error l j = Some p -> nth_error l (S j) = Some q ->
  exists x t x', at_point (w_state p) x /\ at_point (w_state q) x' /\ reference_set (w_ref q) = [t] /\ length t = n /\ euclid (concat (w_R q)) = kap x t * edist x t /\
  (z_of x t <> 1 -> exists d, w_step q = [d] /\ length d = n /\ (forall k, (k < n)%nat -> nth k d 0 = / (z_of x t - 1) * (nth k x 0 - nth k t 0))) /\
  (1 < z_of x t \/ z_of x t <= 1 / 4 -> w_size q = Some 1 /\ forall k, (k < n)%nat -> nth k x' 0 - nth k t 0 = q_of x t * (nth k x 0 - nth k t 0)).
Proof using P PP.
  intros L1 Hi Ho Hp Hq. destruct (run_point rs X0 l j p L1 Hi Ho Hp) as (x & Hx). destruct (run_point rs X0 l (S j) q L1 Hi Ho Hq) as (x' & Hx').
  destruct (mobjects_next M P rs X0 l j p q Hi Ho Hp Hq) as (o1 & u & F & ->). rewrite L1 in F. destruct (iter_point p o1 u x F Hx) as (t & E3 & E4 & E2 & Lt & EN & Hst & Hfull).
  exists x, t, x'. split; auto. split; auto. rewrite (f_res _ _ _ _ _ F). rewrite (f_res _ _ _ _ _ F) in Hx'. cbn [mn_log w_ref w_R w_step w_size w_state] in *. split; auto. split; auto. split. rewrite <- norm_euclid; auto. split; auto.
  intros Hz. destruct (Hfull Hz) as (Ha & y & Hy & Hk). rewrite Ha. split; auto. assert (x' = y). { pose proof (holds_X _ _ _ (proj2 (proj2 Hx'))) as E1. pose proof (holds_X _ _ _ (proj2 (proj2 Hy))) as E1'. congruence. } subst y. auto.
Qed.
(** the target is moved only if the point is at it *)
Lemma run_target rs X0 l j p q x t e : length X0 = 1%nat -> mn_input M rs X0 -> mn_objects M rs X0 l -> nth_error l (S j) = Some p -> nth_error l (S (S j)) = Some q ->
  at_point (w_state p) x -> reference_set (w_ref p) = [t] -> length t = n -> rs_eta rs = [e] ->
  reference_set (w_ref q) = [t] \/ (tiny (edist x t) /\ exists t', reference_set (w_ref q) = [t'] /\ shifted 0.08 e t t').
Proof using P PP.
  intros L1 Hi Ho Hp Hq Hx Et Lt He. destruct (mobjects_matched M P rs X0 l (S j) p q e Hi Ho Hp Hq (pp_match M n theta PP) He) as (T & T' & lg & (LT & (rest & HB) & _) & LT' & HP & Hmv & Hst & _).
  destruct (at_facts _ x Hx) as (_ & _ & EY & _). rewrite EY, Et in *. cbn [length] in LT. destruct T as [|t0 T]; [discriminate|]. destruct T; [|discriminate]. cbn [app] in HB. apply Permutation_sym, Permutation_length_1_inv in HB. injection HB as -> ->.
  cbn [length] in LT'. destruct T' as [|t' T']; [discriminate|]. destruct T'; [|discriminate]. apply Permutation_sym, Permutation_length_1_inv in HP. specialize (Hmv 0%nat ltac:(lia)). specialize (Hst 0%nat ltac:(lia)). cbn [nth] in *.
  match type of Hmv with ?A -> _ => destruct (Classical_Prop.classic A) as [Hm|Hm] end.
  - right. split; [|exists t'; auto]. destruct Hm as [Hm|[(r & [<-|[]] & Hr) _]]; [discriminate|]. cbn [nth] in Hr. rewrite apart_edist in Hr. auto. destruct Hx as (Lx & _). congruence.
  - left. rewrite HP, (Hst Hm). auto.
Qed.
Lemma far_apart x t : theta <= 10 ^ 15 -> 1 < z_of x t -> ~ tiny (edist x t).
Proof using PP.
  intros Ht Hz Hn. unfold tiny in Hn. assert (H0 : 0 <= edist x t) by apply sqrt_pos. assert (Hs : edist x t * edist x t = sqd x t) by (apply sqrt_sqrt, sqd_nonneg).
  assert (Hsm : sqd x t <= / 10 ^ 16). { rewrite <- Hs. replace (/ 10 ^ 16) with (/ 10 ^ 8 * / 10 ^ 8) by field. apply Rmult_le_compat; auto. }
  unfold z_of in Hz. assert (Hth := pp_theta M n theta PP). assert (2 * theta * sqd x t <= 2 * 10 ^ 15 * / 10 ^ 16). { apply Rmult_le_compat; try lra. apply sqd_nonneg. } replace (2 * 10 ^ 15 * / 10 ^ 16) with (1 / 5) in H by field. lra.
Qed.
Lemma run_eta rs X0 : mn_input M rs X0 -> exists e, rs_eta rs = [e] /\ length e = n.
Proof using PP. intros (_ & _ & Hr). rewrite (pp_match M n theta PP) in Hr. destruct Hr as (comp & e & E & Le & _). injection E as <-. exists e. split; auto. rewrite Le. apply (pp_nobj M n theta PP). Qed.

Lemma run_away rs X0 l o0 o1 x0 t : length X0 = 1%nat -> mn_input M rs X0 -> mn_objects M rs X0 l -> nth_error l 0 = Some o0 -> nth_error l 1 = Some o1 -> theta <= 10 ^ 15 ->
  primal_of K (w_state o0) = [x0] -> reference_set (w_ref o1) = [t] -> 1 < 2 * theta * sqd x0 t ->
  forall j p, nth_error l j = Some p -> exists x, primal_of K (w_state p) = [x] /\ 2 * theta * sqd x0 t + 2 * INR j <= 2 * theta * sqd x t /\
    ((0 < j)%nat -> reference_set (w_ref p) = [t] /\ w_size p = Some 1 /\ euclid (concat (w_R p)) <= exp (- INR (j - 1)) * euclid (concat (w_R o1))).
Proof using P PP.
  intros L1 Hi Ho H0 H1 Ht Ex0 Et Hz. destruct (run_eta rs X0 Hi) as (e & He & _).
  assert (I : forall j p q, nth_error l j = Some p -> nth_error l (S j) = Some q -> exists x, at_point (w_state p) x /\ z_of x0 t + 2 * INR j <= z_of x t /\ reference_set (w_ref q) = [t] /\ euclid (concat (w_R q)) <= exp (- INR j) * euclid (concat (w_R o1)) /\ length t = n).
  { induction j as [|j IH]; intros p q Hp Hq.
    - rewrite H0 in Hp. injection Hp as <-. rewrite H1 in Hq. injection Hq as <-. destruct (run_next rs X0 l 0 o0 o1 L1 Hi Ho H0 H1) as (x & t' & x' & A1 & A2 & A3 & A4 & _). rewrite Et in A3. injection A3 as <-.
      assert (x = x0). { destruct (at_facts _ x A1) as (_ & E & _). congruence. } subst x. exists x0. split; auto. simpl INR. rewrite Ropp_0, exp_0. repeat split; try lra; auto.
    - destruct (mobjects_prev M rs X0 l j p Ho Hp) as (p0 & Hp0). destruct (IH p0 p Hp0 Hp) as (x & A1 & A2 & A3 & A4 & Lt).
      destruct (run_next rs X0 l j p0 p L1 Hi Ho Hp0 Hp) as (y & t1 & x1 & B1 & B2 & B3 & B4 & B5 & _ & B7). rewrite A3 in B3. injection B3 as <-.
      assert (y = x). { destruct (at_facts _ x A1) as (E1 & _). destruct (at_facts _ y B1) as (E2 & _). congruence. } subst y.
      assert (Hzx : 1 < z_of x t). { unfold z_of in A2 |- *. pose proof (pos_INR j). lra. }
      destruct (B7 (or_introl Hzx)) as [_ Hk]. assert (Lx := proj1 A1). assert (Lx1 := proj1 B2). destruct (norm_ratio x t x1 Lx Lt Lx1 Hk) as (_ & _ & N3). destruct (grow _ Hzx) as (_ & G2 & _). fold (q_of x t) in G2.
      destruct (accept_full x t x1 Lx Lt Lx1 (or_introl Hzx) Hk) as [_ HA]. specialize (HA Hzx).
      exists x1. split; auto. split. rewrite S_INR, N3. lra.
      assert (Hz1 : 1 < z_of x1 t) by (rewrite N3; lra).
      assert (Etq : reference_set (w_ref q) = [t]). { destruct (run_target rs X0 l j p q x1 t e L1 Hi Ho Hp Hq B2 A3 Lt He) as [|[Hty _]]; auto. exfalso. apply (far_apart x1 t); auto. }
      split; auto. split; auto. destruct (run_next rs X0 l (S j) p q L1 Hi Ho Hp Hq) as (y & t1 & x2 & C1 & C2 & C3 & C4 & C5 & _). rewrite Etq in C3. injection C3 as <-.
      assert (y = x1). { destruct (at_facts _ x1 B2) as (E1 & _). destruct (at_facts _ y C1) as (E2 & _). congruence. } subst y. rewrite C5. rewrite B5 in A4.
      rewrite S_INR. replace (- (INR j + 1)) with (-1 + - INR j) by lra. rewrite exp_plus. pose proof (exp_pos (-1)). nra. }
  intros j p Hp. destruct j as [|j].
  - exists x0. rewrite H0 in Hp. injection Hp as <-. split; auto. simpl INR. split. lra. lia.
  - destruct (mobjects_prev M rs X0 l j p Ho Hp) as (p0 & Hp0). destruct (I j p0 p Hp0 Hp) as (x & A1 & A2 & A3 & A4 & Lt).
    destruct (run_next rs X0 l j p0 p L1 Hi Ho Hp0 Hp) as (y & t1 & x1 & B1 & B2 & B3 & B4 & B5 & _ & B7). rewrite A3 in B3. injection B3 as <-.
    assert (y = x). { destruct (at_facts _ x A1) as (E1 & _). destruct (at_facts _ y B1) as (E2 & _). congruence. } subst y.
    assert (Hzx : 1 < z_of x t). { unfold z_of in A2 |- *. pose proof (pos_INR j). lra. }
    destruct (B7 (or_introl Hzx)) as [Hs Hk]. destruct (norm_ratio x t x1 (proj1 A1) Lt (proj1 B2) Hk) as (_ & _ & N3). destruct (grow _ Hzx) as (_ & G2 & _). fold (q_of x t) in G2.
    exists x1. split. apply (at_facts _ x1 B2). split. change (2 * theta * sqd x1 t) with (z_of x1 t). change (2 * theta * sqd x0 t) with (z_of x0 t). rewrite N3, S_INR. lra.
    intros _. split; auto. split; auto. replace (S j - 1)%nat with j by lia. auto.
Qed.
Lemma run_near rs X0 l j p q x t : length X0 = 1%nat -> mn_input M rs X0 -> mn_objects M rs X0 l -> nth_error l j = Some p -> nth_error l (S j) = Some q ->
  primal_of K (w_state p) = [x] -> reference_set (w_ref q) = [t] -> 2 * theta * sqd x t <= 1 / 4 ->
  exists x', primal_of K (w_state q) = [x'] /\ w_size q = Some 1 /\ edist x' t = 2 * theta * edist x t ^ 3 / (1 - 2 * theta * sqd x t) /\ edist x' t <= edist x t / 3.
Proof using P PP.
  intros L1 Hi Ho Hp Hq Ex Et Hz. destruct (run_next rs X0 l j p q L1 Hi Ho Hp Hq) as (y & t1 & x' & A1 & A2 & A3 & Lt & _ & _ & A7). rewrite Et in A3. injection A3 as <-.
  assert (y = x). { destruct (at_facts _ y A1) as (_ & E & _). congruence. } subst y. destruct (A7 (or_intror Hz)) as [Hs Hk]. destruct (norm_ratio x t x' (proj1 A1) Lt (proj1 A2) Hk) as (_ & N2 & _).
  assert (Hth := pp_theta M n theta PP). assert (S0 := sqd_nonneg x t). assert (E0 : 0 <= edist x t) by apply sqrt_pos. assert (Hsq : edist x t * edist x t = sqd x t) by (apply sqrt_sqrt, sqd_nonneg).
  assert (Z0 : 0 <= z_of x t) by (unfold z_of; nra). destruct (shrink (z_of x t) (conj Z0 Hz)) as [Q _].
  assert (Eq : Rabs (q_of x t) = z_of x t / (1 - z_of x t)). { unfold q_of. replace (z_of x t / (z_of x t - 1)) with (- (z_of x t / (1 - z_of x t))) by (field; unfold z_of in *; lra). rewrite Rabs_Ropp, Rabs_right by lra. auto. }
  exists x'. split. apply (at_facts _ x' A2). split; auto. rewrite N2, Eq. split.
  - unfold z_of. rewrite <- Hsq in *. field. unfold z_of in Hz. lra.
  - nra.
Qed.
Definition sumsq (e : list R) : R := sumR (map (fun a => a ^ 2) e).
Lemma shifted_far x t t' e c : length x = n -> length t = n -> length e = n -> shifted c e t t' -> sqd x t' <= 2 * sqd x t + 2 * (c * c * sumsq e).
Proof using.
  intros Lx Lt Le [L H]. rewrite (sqd_prod n x t' Lx) by congruence. rewrite (sqd_prod n x t Lx Lt). unfold sumsq. rewrite (sq_sumn e n Le).
  rewrite <- !sumn_scal, <- sumn_plus. apply sumn_mono. intros k Hk. rewrite H. assert (0 <= ((nth k x 0 - nth k t 0) + c * nth k e 0) ^ 2) by apply pow2_ge_0. nra.
Qed.
(** the point stays close to its target *)
Lemma run_tracks rs X0 l o0 o1 x0 t1 e : length X0 = 1%nat -> mn_input M rs X0 -> mn_objects M rs X0 l -> nth_error l 0 = Some o0 -> nth_error l 1 = Some o1 ->
  primal_of K (w_state o0) = [x0] -> reference_set (w_ref o1) = [t1] -> 2 * theta * sqd x0 t1 <= 1 / 4 -> rs_eta rs = [e] -> theta * (/ 10 ^ 16 + 0.08 ^ 2 * sumsq e) <= 1 / 16 ->
  forall j p q, nth_error l j = Some p -> nth_error l (S j) = Some q -> exists x x' t, primal_of K (w_state p) = [x] /\ primal_of K (w_state q) = [x'] /\ reference_set (w_ref q) = [t] /\
    w_size q = Some 1 /\ 2 * theta * sqd x t <= 1 / 4 /\ edist x' t <= edist x t / 3.
Proof using P PP.
  intros L1 Hi Ho H0 H1 Ex0 Et Hz He Hth. assert (Ht := pp_theta M n theta PP). assert (Le : length e = n). { destruct (run_eta rs X0 Hi) as (e' & E & L). congruence. }
  assert (I : forall j p q, nth_error l j = Some p -> nth_error l (S j) = Some q -> exists x t, at_point (w_state p) x /\ reference_set (w_ref q) = [t] /\ length t = n /\ z_of x t <= 1 / 4).
  { induction j as [|j IH]; intros p q Hp Hq.
    - rewrite H0 in Hp. injection Hp as <-. rewrite H1 in Hq. injection Hq as <-. destruct (run_next rs X0 l 0 o0 o1 L1 Hi Ho H0 H1) as (x & t' & x' & A1 & A2 & A3 & A4 & _). rewrite Et in A3. injection A3 as <-.
      assert (x = x0). { destruct (at_facts _ x A1) as (_ & E & _). congruence. } subst x. exists x0, t1. auto.
    - destruct (mobjects_prev M rs X0 l j p Ho Hp) as (p0 & Hp0). destruct (IH p0 p Hp0 Hp) as (x & t & A1 & A2 & Lt & A4). destruct (at_facts _ x A1) as (_ & Ex & _).
      destruct (run_near rs X0 l j p0 p x t L1 Hi Ho Hp0 Hp Ex A2 A4) as (x1 & B1 & _ & _ & B4). destruct (run_point rs X0 l (S j) p L1 Hi Ho Hp) as (y & Hy). assert (y = x1). { destruct (at_facts _ y Hy) as (_ & E & _). congruence. } subst y.
      assert (Hsq : sqd x1 t <= sqd x t). { assert (E0 : 0 <= edist x t) by apply sqrt_pos. assert (E1 : 0 <= edist x1 t) by apply sqrt_pos. assert (F0 : edist x t * edist x t = sqd x t) by (apply sqrt_sqrt, sqd_nonneg). assert (F1 : edist x1 t * edist x1 t = sqd x1 t) by (apply sqrt_sqrt, sqd_nonneg). rewrite <- F0, <- F1. nra. }
      destruct (run_target rs X0 l j p q x1 t e L1 Hi Ho Hp Hq Hy A2 Lt He) as [E|(Hty & t' & E & Hsh)].
      + exists x1, t. split; auto. split; auto. split; auto. unfold z_of in *. nra.
      + exists x1, t'. split; auto. split; auto. destruct Hsh as [Lt' Hsh']. split. congruence. assert (Hf := shifted_far x1 t t' e 0.08 (proj1 Hy) Lt Le (conj Lt' Hsh')).
        assert (Hs1 : sqd x1 t <= / 10 ^ 16). { assert (E1 : 0 <= edist x1 t) by apply sqrt_pos. assert (F1 : edist x1 t * edist x1 t = sqd x1 t) by (apply sqrt_sqrt, sqd_nonneg). rewrite <- F1. unfold tiny in Hty. replace (/ 10 ^ 16) with (/ 10 ^ 8 * / 10 ^ 8) by field. apply Rmult_le_compat; auto. }
        unfold z_of. replace (0.08 * 0.08) with (0.08 ^ 2) in Hf by ring. assert (2 * theta * sqd x1 t' <= 2 * theta * (2 * (/ 10 ^ 16 + 0.08 ^ 2 * sumsq e))) by (apply Rmult_le_compat_l; lra). lra. }
  intros j p q Hp Hq. destruct (I j p q Hp Hq) as (x & t & A1 & A2 & Lt & A4). destruct (at_facts _ x A1) as (_ & Ex & _).
  destruct (run_near rs X0 l j p q x t L1 Hi Ho Hp Hq Ex A2 A4) as (x1 & B1 & B2 & _ & B4). exists x, x1, t. repeat (split; [auto|]). auto.
Qed.
End Dyn.
