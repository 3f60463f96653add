(** The kernels of the library and their derivatives. *)
From Coq Require Import List Arith Bool Reals Lia Lra.
From Coquelicot Require Import Coquelicot.
From Verif Require Import Num Exn ListAux HVDSpec HVDProof NewtonModel NewtonProof HVXModel HVXSpec HVXProof HVChain HVXTop
  IndSpec IndModel IndProof IndGD MMDSpec MMDModel MMDProof.
Import ListNotations.
Open Scope R_scope.

Lemma sqnorm_sqd x y : sqnorm x y = sqd x y.
Proof. unfold sqnorm. revert y. induction x as [|a x IH]; intros [|b y]; simpl; auto. rewrite IH. auto. Qed.
Lemma sqd_diag x : sqd x x = 0.
Proof. induction x as [|a x IH]; simpl; auto. rewrite IH. ring. Qed.
Definition delta (a b : nat) : R := if (a =? b)%nat then 1 else 0.
Lemma sumn_delta m a (f : nat -> R) : (a < m)%nat -> sumn m (fun b => delta a b * f b) = f a.
Proof.
  intros Ha. rewrite (sumn_single m a); auto; [|intros b Hb Hne; unfold delta; destruct (Nat.eqb_spec a b); [congruence|ring]].
  unfold delta. rewrite Nat.eqb_refl. ring.
Qed.

(** * Functions of the squared distance *)
Section Radial.
Variables (m : nat) (F F1 F2 : R -> R).
Hypothesis HF : forall s, 0 <= s -> is_derive F s (F1 s).
Hypothesis HF1 : forall s, 0 <= s -> is_derive F1 s (F2 s).
Definition rad_dx (x y : list R) (a : nat) : R := 2 * (nth a x 0 - nth a y 0) * F1 (sqd x y).
Definition rad_dx2 (x y : list R) (a b : nat) : R :=
  2 * delta a b * F1 (sqd x y) + 4 * (nth a x 0 - nth a y 0) * (nth b x 0 - nth b y 0) * F2 (sqd x y).
Definition rad_dxdy (x y : list R) (a b : nat) : R := - rad_dx2 x y a b.

Lemma sqd_path phi phi' t0 y : path m phi phi' t0 -> length y = m ->
  is_derive (fun t : R => sqd (phi t) y) t0 (2 * sumn m (fun a => (nth a (phi t0) 0 - nth a y 0) * phi' a)).
Proof using. intros [HL Hd] Hy. pose proof (sqd_derive m phi phi' t0 y HL Hy Hd) as D. unfold inner in D. rewrite (sumn_ext m _ (fun a => phi' a * (nth a (phi t0) 0 - nth a y 0))); auto. intros; ring. Qed.
Lemma comp_path G g phi phi' t0 y : path m phi phi' t0 -> length y = m -> is_derive G (sqd (phi t0) y) g ->
  is_derive (fun t : R => G (sqd (phi t) y)) t0 (g * (2 * sumn m (fun a => (nth a (phi t0) 0 - nth a y 0) * phi' a))).
Proof using.
  intros Hp Hy Hg. pose proof (is_derive_comp G (fun t : R => sqd (phi t) y) t0 _ _ Hg (sqd_path phi phi' t0 y Hp Hy)) as H.
  rewrite Rmult_comm. exact H.
Qed.
Lemma prod_derive (u v : R -> R) t0 u' v' w : is_derive u t0 u' -> is_derive v t0 v' -> w = u' * v t0 + u t0 * v' ->
  is_derive (fun t : R => u t * v t) t0 w.
Proof using. intros Hu Hv ->. pose proof (is_derive_mult u v t0 u' v' Hu Hv Rmult_comm) as H. exact H. Qed.
Lemma radial_ok : kernel_ok m (fun _ _ => True) (fun x y => F (sqd x y)) rad_dx rad_dx2 rad_dxdy.
Proof using HF HF1.
  split; auto.
  - intros x y _ _. rewrite sqd_sym. auto.
  - exists (F 0). intros x _. rewrite sqd_diag. auto.
  - intros. apply filter_forall. auto.
  - intros x y Hx Hy _ phi phi' t0 Hp E. pose proof (comp_path F (F1 (sqd x y)) phi phi' t0 y Hp Hy) as D. rewrite E in D. specialize (D (HF _ (sqd_nonneg _ _))).
    match type of D with is_derive _ _ ?v => replace (sumn m _) with v; [exact D|] end.
    rewrite <- Rmult_assoc, <- sumn_scal. apply sumn_ext. intros a Ha. unfold rad_dx. ring.
  - intros x y a Hx Hy _ Ha phi phi' t0 Hp E. pose proof (comp_path F1 (F2 (sqd x y)) phi phi' t0 y Hp Hy) as D. rewrite E in D. specialize (D (HF1 _ (sqd_nonneg _ _))).
    unfold rad_dx. eapply (prod_derive (fun t : R => 2 * (nth a (phi t) 0 - nth a y 0)) (fun t : R => F1 (sqd (phi t) y)) t0 (2 * phi' a)); [|exact D|].
    + pose proof (proj2 Hp a Ha) as Hd. apply (is_derive_ext (fun t : R => scal 2 (minus (nth a (phi t) 0) (nth a y 0)))); [intros; reflexivity|].
      replace (2 * phi' a) with (scal 2 (minus (phi' a) 0)) by (simplR; ring). apply @is_derive_scal. apply @is_derive_minus; [exact Hd|apply @is_derive_const].
    + rewrite E. rewrite (sumn_ext m (fun b => rad_dx2 x y a b * phi' b) (fun b => 2 * F1 (sqd x y) * (delta a b * phi' b) + 4 * (nth a x 0 - nth a y 0) * F2 (sqd x y) * ((nth b x 0 - nth b y 0) * phi' b))) by (intros; unfold rad_dx2; ring).
      rewrite sumn_plus, !sumn_scal, sumn_delta by auto. ring.
  - intros x y a Hx Hy _ Ha phi phi' t0 Hp E. pose proof (comp_path F1 (F2 (sqd x y)) phi phi' t0 x Hp Hx) as D. rewrite E, (sqd_sym y x) in D. specialize (D (HF1 _ (sqd_nonneg _ _))).
    unfold rad_dx. apply (prod_derive (fun t : R => 2 * (nth a x 0 - nth a (phi t) 0)) (fun t : R => F1 (sqd x (phi t))) t0 (- 2 * phi' a) (F2 (sqd x y) * (2 * sumn m (fun b => (nth b y 0 - nth b x 0) * phi' b)))).
    + pose proof (proj2 Hp a Ha) as Hd. apply (is_derive_ext (fun t : R => scal 2 (minus (nth a x 0) (nth a (phi t) 0)))); [intros; reflexivity|].
      replace (-2 * phi' a) with (scal 2 (minus 0 (phi' a))) by (simplR; ring). apply @is_derive_scal. apply @is_derive_minus; [apply @is_derive_const|exact Hd].
    + revert D. apply is_derive_ext. intros t. rewrite sqd_sym. auto.
    + rewrite E. rewrite (sumn_ext m (fun b => rad_dxdy x y a b * phi' b) (fun b => - 2 * F1 (sqd x y) * (delta a b * phi' b) + 4 * (nth a x 0 - nth a y 0) * F2 (sqd x y) * ((nth b y 0 - nth b x 0) * phi' b))) by (intros; unfold rad_dxdy, rad_dx2; ring).
      rewrite sumn_plus, !sumn_scal, sumn_delta by auto. ring.
Qed.
Lemma rad_dxdy_sym x y a b : rad_dxdy x y a b = rad_dxdy y x a b.
Proof using.
  unfold rad_dxdy, rad_dx2. rewrite (sqd_sym y x). ring.
Qed.
End Radial.

(** radial basis function kernel *)
Definition rbf1 (theta s : R) : R := - theta * exp (- theta * s).
Definition rbf2 (theta s : R) : R := theta ^ 2 * exp (- theta * s).
Definition rbf_kern (theta : R) : kern := mkKern (rbf theta) (rad_dx (rbf1 theta)) (rad_dx2 (rbf1 theta) (rbf2 theta)) (rad_dxdy (rbf1 theta) (rbf2 theta)).
Lemma kernel_ok_ext m dom k k' dx dx2 dxdy : (forall x y, k x y = k' x y) -> kernel_ok m dom k dx dx2 dxdy -> kernel_ok m dom k' dx dx2 dxdy.
Proof.
  intros E [H1 H2 H3 H4 H5 H6 H7]. split; auto.
  - intros x y Hx Hy. rewrite <- !E. auto.
  - destruct H2 as (c & Hc). exists c. intros x Hx. rewrite <- E. auto.
  - intros x y Hx Hy Hd phi phi' t0 Hp E0. apply (is_derive_ext (fun t : R => k (phi t) y)); [intros; apply E|]. apply (H5 x y Hx Hy Hd phi phi' t0 Hp E0).
Qed.
Lemma rbf_ok m theta : kernel_ok m (fun _ _ => True) (rbf theta) (rad_dx (rbf1 theta)) (rad_dx2 (rbf1 theta) (rbf2 theta)) (rad_dxdy (rbf1 theta) (rbf2 theta)).
Proof.
  apply (kernel_ok_ext m _ (fun x y => exp (- theta * sqd x y))); [intros x y; unfold rbf; rewrite sqnorm_sqd; auto|].
  apply (radial_ok m (fun s => exp (- theta * s)) (rbf1 theta) (rbf2 theta)).
  - intros s _. unfold rbf1. auto_derive; auto; ring.
  - intros s _. unfold rbf1, rbf2. auto_derive; auto; ring.
Qed.

(** rational quadratic kernel *)
Definition rq0 (theta alpha s : R) : R := Rpower (s * theta / (2 * alpha) + 1) (- alpha).
Definition rq1 (theta alpha s : R) : R := - theta / 2 * Rpower (s * theta / (2 * alpha) + 1) (- alpha - 1).
Definition rq2 (theta alpha s : R) : R := (alpha + 1) * theta ^ 2 / (4 * alpha) * Rpower (s * theta / (2 * alpha) + 1) (- alpha - 1 - 1).
Definition rq_kern (theta alpha : R) : kern :=
  mkKern (rational_quadratic theta alpha) (rad_dx (rq1 theta alpha)) (rad_dx2 (rq1 theta alpha) (rq2 theta alpha)) (rad_dxdy (rq1 theta alpha) (rq2 theta alpha)).
Lemma rq_ok m theta alpha : 0 <= theta -> 0 < alpha ->
  kernel_ok m (fun _ _ => True) (rational_quadratic theta alpha) (rad_dx (rq1 theta alpha)) (rad_dx2 (rq1 theta alpha) (rq2 theta alpha)) (rad_dxdy (rq1 theta alpha) (rq2 theta alpha)).
Proof.
  intros Ht Ha. apply (kernel_ok_ext m _ (fun x y => rq0 theta alpha (sqd x y))); [intros x y; unfold rational_quadratic, rq0; rewrite sqnorm_sqd; auto|].
  assert (Hu : forall s, is_derive (fun s : R => s * theta / (2 * alpha) + 1) s (theta / (2 * alpha))) by (intros s; auto_derive; auto; field; lra).
  assert (Hpos : forall s, 0 <= s -> 0 < s * theta / (2 * alpha) + 1).
  { intros s Hs. assert (0 <= s * theta / (2 * alpha)); [|lra]. apply Rdiv_le_0_compat; [apply Rmult_le_pos; auto|lra]. }
  apply (radial_ok m (rq0 theta alpha) (rq1 theta alpha) (rq2 theta alpha)); intros s Hs.
  - unfold rq0, rq1. pose proof (Rpower_derive s _ _ (- alpha) (Hu s) (Hpos s Hs)) as D.
    match type of D with is_derive _ _ ?v => match goal with |- is_derive _ _ ?w => replace w with v; [exact D|field; lra] end end.
  - unfold rq1, rq2. pose proof (Rpower_derive s _ _ (- alpha - 1) (Hu s) (Hpos s Hs)) as D. apply (is_derive_scal _ _ (- theta / 2)) in D.
    match type of D with is_derive _ _ ?v => match goal with |- is_derive _ _ ?w => replace w with v; [exact D|simplR; field; lra] end end.
Qed.

(** * Laplace kernel: away from points that share a coordinate *)
Definition apart (m : nat) (x y : list R) : Prop := forall a, (a < m)%nat -> nth a x 0 <> nth a y 0.
Definition sg (x y : list R) (a : nat) : R := sign (nth a x 0 - nth a y 0).
Definition lap_dx (theta : R) (x y : list R) (a : nat) : R := - theta * sg x y a * laplace theta x y.
Definition lap_dx2 (theta : R) (x y : list R) (a b : nat) : R := theta ^ 2 * sg x y a * sg x y b * laplace theta x y.
Definition lap_dxdy (theta : R) (x y : list R) (a b : nat) : R := - (theta ^ 2 * sg x y a * sg x y b * laplace theta x y).
Definition lap_kern (theta : R) : kern := mkKern (laplace theta) (lap_dx theta) (lap_dx2 theta) (lap_dxdy theta).
Lemma l1_sumn m x y : length x = m -> length y = m -> fold_right Rplus 0 (zip_with (fun a b => Rabs (a - b)) x y) = sumn m (fun a => Rabs (nth a x 0 - nth a y 0)).
Proof.
  revert x y. induction m as [|m IH]; intros [|a x] [|b y] Hx Hy; simpl in Hx, Hy; try lia; auto.
  rewrite sumn_first. simpl zip_with. simpl fold_right. rewrite (IH x y) by lia. auto.
Qed.
Lemma sg_sym x y a : nth a x 0 <> nth a y 0 -> sg x y a = - sg y x a.
Proof.
  intros H. unfold sg. destruct (Rlt_dec (nth a x 0) (nth a y 0)).
  - rewrite (sign_eq_m1 (nth a x 0 - nth a y 0)), (sign_eq_1 (nth a y 0 - nth a x 0)); lra.
  - rewrite (sign_eq_1 (nth a x 0 - nth a y 0)), (sign_eq_m1 (nth a y 0 - nth a x 0)); lra.
Qed.
Lemma lap_sym theta m x y : length x = m -> length y = m -> laplace theta x y = laplace theta y x.
Proof.
  intros Hx Hy. unfold laplace. rewrite !(l1_sumn m) by auto. do 2 f_equal. apply sumn_ext. intros a Ha. apply Rabs_minus_sym.
Qed.
Lemma diff_local (u : R -> R) u' t0 : is_derive u t0 u' -> u t0 <> 0 -> locally t0 (fun t : R => u t <> 0 /\ sign (u t) = sign (u t0)).
Proof.
  intros Hd Hn. destruct (Rlt_dec (u t0) 0).
  - generalize (locally_lt u t0 0 (derive_continuous _ _ _ Hd) r). apply filter_imp. intros t Ht. split; [apply Rlt_not_eq; auto|]. rewrite !sign_eq_m1; auto.
  - assert (Hp : 0 < u t0) by lra. generalize (locally_gt u t0 0 (derive_continuous _ _ _ Hd) Hp). apply filter_imp. intros t Ht. split; [apply Rgt_not_eq; auto|]. rewrite !sign_eq_1; auto.
Qed.
Lemma lap_path theta m phi phi' t0 y : path m phi phi' t0 -> length y = m -> apart m (phi t0) y ->
  is_derive (fun t : R => laplace theta (phi t) y) t0 (- theta * laplace theta (phi t0) y * sumn m (fun a => sg (phi t0) y a * phi' a)).
Proof.
  intros [HL Hd] Hy Ha.
  assert (D : is_derive (fun t : R => sumn m (fun a => Rabs (nth a (phi t) 0 - nth a y 0))) t0 (sumn m (fun a => sg (phi t0) y a * phi' a))).
  { apply (sumn_derive m (fun a (t : R) => Rabs (nth a (phi t) 0 - nth a y 0))). intros a Hal. unfold sg.
    apply (is_derive_Rabs (fun t : R => nth a (phi t) 0 - nth a y 0)).
    - pose proof (@is_derive_minus R_AbsRing R_NormedModule _ _ t0 _ _ (Hd a Hal) (@is_derive_const R_AbsRing R_NormedModule (nth a y 0) t0)) as D.
      match type of D with is_derive _ _ ?v => replace (phi' a) with v; [exact D|simplR; unfold zero; cbn; ring] end.
    - specialize (Ha a Hal). lra. }
  apply (is_derive_ext (fun t : R => exp (- theta * sumn m (fun a => Rabs (nth a (phi t) 0 - nth a y 0))))).
  { intros t. unfold laplace. rewrite (l1_sumn m) by auto. auto. }
  unfold laplace. rewrite (l1_sumn m) by auto.
  assert (D2 : is_derive (fun s : R => exp (- theta * s)) (sumn m (fun a => Rabs (nth a (phi t0) 0 - nth a y 0))) (- theta * exp (- theta * sumn m (fun a => Rabs (nth a (phi t0) 0 - nth a y 0))))).
  { auto_derive; auto; ring. }
  pose proof (is_derive_comp _ _ t0 _ _ D2 D) as D3. rewrite Rmult_comm. exact D3.
Qed.
Lemma sg_path m phi phi' t0 y a : path m phi phi' t0 -> (a < m)%nat -> nth a (phi t0) 0 <> nth a y 0 -> locally t0 (fun t : R => sg (phi t) y a = sg (phi t0) y a).
Proof.
  intros [HL Hd] Ha Hne. unfold sg.
  assert (D : is_derive (fun t : R => nth a (phi t) 0 - nth a y 0) t0 (phi' a)).
  { pose proof (@is_derive_minus R_AbsRing R_NormedModule _ _ t0 _ _ (Hd a Ha) (@is_derive_const R_AbsRing R_NormedModule (nth a y 0) t0)) as D.
    match type of D with is_derive _ _ ?v => replace (phi' a) with v; [exact D|simplR; unfold zero; cbn; ring] end. }
  generalize (diff_local _ _ _ D ltac:(lra)). apply filter_imp. intros t [_ E]. exact E.
Qed.
Lemma apart_open m phi phi' t0 y : path m phi phi' t0 -> apart m (phi t0) y -> locally t0 (fun t : R => apart m (phi t) y).
Proof.
  intros [HL Hd] Ha.
  assert (H : locally t0 (fun t : R => forall a, In a (seq 0 m) -> nth a (phi t) 0 <> nth a y 0)).
  { apply (locally_all (seq 0 m) (fun a (t : R) => nth a (phi t) 0 <> nth a y 0)). intros a Hs. apply in_seq in Hs. assert (Hal : (a < m)%nat) by lia.
    assert (D : is_derive (fun t : R => nth a (phi t) 0 - nth a y 0) t0 (phi' a)).
    { pose proof (@is_derive_minus R_AbsRing R_NormedModule _ _ t0 _ _ (Hd a Hal) (@is_derive_const R_AbsRing R_NormedModule (nth a y 0) t0)) as D.
      match type of D with is_derive _ _ ?v => replace (phi' a) with v; [exact D|simplR; unfold zero; cbn; ring] end. }
    specialize (Ha a Hal). generalize (diff_local _ _ _ D ltac:(lra)). apply filter_imp. intros t [E _]. intros E2. apply E. apply Rminus_diag_eq. exact E2. }
  revert H. apply filter_imp. intros t H a Hal. apply H. apply in_seq. lia.
Qed.
Lemma laplace_ok m theta : kernel_ok m (apart m) (laplace theta) (lap_dx theta) (lap_dx2 theta) (lap_dxdy theta).
Proof.
  split.
  - intros x y Hx Hy. apply (lap_sym theta m); auto.
  - exists 1. intros x Hx. unfold laplace. rewrite (l1_sumn m) by auto. rewrite sumn_zero; [rewrite Rmult_0_r; apply exp_0|]. intros a Ha. rewrite Rminus_eq_0. apply Rabs_R0.
  - intros x y H a Ha E. apply (H a Ha). auto.
  - intros phi phi' t0 y Hy Hp Ha. apply (apart_open m phi phi' t0 y Hp Ha).
  - intros x y Hx Hy Ha phi phi' t0 Hp E. subst x. pose proof (lap_path theta m phi phi' t0 y Hp Hy Ha) as D.
    match type of D with is_derive _ _ ?v => replace (sumn m _) with v; [exact D|] end. rewrite <- sumn_scal. apply sumn_ext. intros a _. unfold lap_dx. ring.
  - intros x y a Hx Hy Ha Hal phi phi' t0 Hp E. subst x. pose proof (lap_path theta m phi phi' t0 y Hp Hy Ha) as D.
    apply (is_derive_scal _ _ (- theta * sg (phi t0) y a)) in D.
    apply (is_derive_ext_loc (fun t : R => - theta * sg (phi t0) y a * laplace theta (phi t) y)).
    + generalize (sg_path m phi phi' t0 y a Hp Hal (Ha a Hal)). apply filter_imp. intros t Et. unfold lap_dx. rewrite Et. auto.
    + match type of D with is_derive _ _ ?v => replace (sumn m _) with v; [exact D|] end. rewrite <- Rmult_assoc, <- sumn_scal. apply sumn_ext. intros b _. unfold lap_dx2. ring.
  - intros x y a Hx Hy Ha Hal phi phi' t0 Hp E. subst y.
    assert (Ha' : apart m (phi t0) x) by (intros b Hb Eb; apply (Ha b Hb); auto).
    pose proof (lap_path theta m phi phi' t0 x Hp Hx Ha') as D.
    apply (is_derive_scal _ _ (- theta * sg x (phi t0) a)) in D.
    apply (is_derive_ext_loc (fun t : R => - theta * sg x (phi t0) a * laplace theta (phi t) x)).
    + generalize (filter_and _ _ (sg_path m phi phi' t0 x a Hp Hal (Ha' a Hal)) (apart_open m phi phi' t0 x Hp Ha')). apply filter_imp. intros t [Et Ht]. unfold lap_dx.
      rewrite (lap_sym theta m x (phi t)) by (auto; apply Hp). do 2 f_equal. rewrite (sg_sym x (phi t)), (sg_sym x (phi t0)) by (intros E; first [apply (Ht a Hal); auto; fail | apply (Ha a Hal); auto]). rewrite Et. auto.
    + match type of D with is_derive _ _ ?v => replace (sumn m _) with v; [exact D|] end. rewrite <- Rmult_assoc, <- sumn_scal. apply sumn_ext. intros b Hb. unfold lap_dxdy.
      rewrite (lap_sym theta m x (phi t0)) by (auto; apply Hp). rewrite (sg_sym (phi t0) x b) by auto. ring.
Qed.
Lemma lap_dxdy_sym m theta x y a b : length x = m -> length y = m -> apart m x y -> (a < m)%nat -> (b < m)%nat -> lap_dxdy theta x y a b = lap_dxdy theta y x a b.
Proof.
  intros Hx Hy Hap Ha Hb. unfold lap_dxdy. rewrite (lap_sym theta m y x) by auto. rewrite (sg_sym x y a), (sg_sym x y b) by (apply Hap; auto). ring.
Qed.
