(** From derivatives along paths in objective space to gradients and Hessians in decision space. *)
From Coq Require Import List Arith Bool Reals Lia Lra Permutation.
From Coquelicot Require Import Coquelicot.
From Verif Require Import Num Exn ListAux HVDSpec HVDProof NewtonModel NewtonProof HVXModel HVXSpec HVXProof HVChain HVXTop
  RefModel RefProof RefTop IndSpec IndModel IndProof IndGD IndIGD IndTop MMDSpec MMDModel MMDProof MMDKern.
Import ListNotations.
Open Scope R_scope.

(** * An indicator with derivatives along paths of one point *)
Section Generic.
Variables (n m N : nat) (f : list R -> list R) (J : list R -> nat -> nat -> R) (H : list R -> nat -> nat -> nat -> R).
Hypothesis Hmaps : maps n m f.
Hypothesis HJ : forall x, length x = n -> jac_at n m f (J x) x.
Hypothesis HH : forall x, length x = n -> hess_at n m J (H x) x.
Variables (V : list (list R) -> R) (g : list (list R) -> nat -> nat -> R) (g2 : list (list R) -> nat -> nat -> nat -> nat -> R)
  (sep : list (list R) -> nat -> Prop).
Hypothesis HG : forall phi phi' t0 Y i, path m phi phi' t0 -> rows m Y -> length Y = N -> (i < N)%nat -> phi t0 = row Y i -> sep Y i ->
  is_derive (fun t : R => V (set_at i (phi t) Y)) t0 (sumn m (fun a => g Y i a * phi' a)).
Hypothesis HG2 : forall phi phi' t0 Y i j a, path m phi phi' t0 -> rows m Y -> length Y = N -> (i < N)%nat -> (j < N)%nat -> (a < m)%nat -> phi t0 = row Y j -> sep Y i ->
  is_derive (fun t : R => g (set_at j (phi t) Y) i a) t0 (sumn m (fun b => g2 Y i j a b * phi' b)).
Hypothesis Hopen : forall phi phi' t0 Y i j, path m phi phi' t0 -> rows m Y -> length Y = N -> (i < N)%nat -> (j < N)%nat -> phi t0 = row Y j -> sep Y i ->
  locally t0 (fun t : R => sep (set_at j (phi t) Y) i).
Definition Ival : list (list R) -> R -> Prop := fun Y v => v = V Y.

Lemma phi_path x l : length x = n -> (l < n)%nat -> path m (fun t : R => f (set_at l t x)) (fun b => J x b l) (nth l x 0).
Proof using Hmaps HJ. intros Hx Hl. split; [intros t; apply Hmaps; rewrite set_at_length; auto|]. intros a Ha. apply (HJ x Hx); auto. Qed.
Lemma map_coord X j l t : map f (set_coord X j l t) = set_at j (f (set_at l t (nth j X []))) (map f X).
Proof using. unfold set_coord. apply map_set_at. Qed.
Lemma phi_start X j l : (j < length X)%nat -> (l < length (nth j X []))%nat -> f (set_at l (nth l (nth j X []) 0) (nth j X [])) = row (map f X) j.
Proof using. intros Hj Hl. rewrite set_at_same by auto. unfold row. rewrite nth_mapf; auto. Qed.
Lemma gen_partial X i k : rows n X -> length X = N -> (i < N)%nat -> (k < n)%nat -> sep (map f X) i ->
  is_partial_I Ival f X i k (sumn m (fun a => g (map f X) i a * J (nth i X []) a k)).
Proof using Hmaps HJ HG.
  intros HX HN HiN Hk Hs h Hh. assert (Hi : (i < length X)%nat) by lia. assert (Hx : length (nth i X []) = n) by (apply HX, nth_In; auto).
  apply (is_derive_ext (fun t : R => V (set_at i (f (set_at k t (nth i X []))) (map f X)))).
  { intros t. rewrite <- map_coord. symmetry. apply Hh. }
  apply (HG (fun t : R => f (set_at k t (nth i X []))) (fun b => J (nth i X []) b k)); auto.
  - apply phi_path; auto.
  - apply (map_f_rows n m f Hmaps X HX).
  - rewrite map_length. auto.
  - apply phi_start; auto. lia.
Qed.
Lemma partial_uniq X i k c d : is_partial_I Ival f X i k c -> is_partial_I Ival f X i k d -> c = d.
Proof using.
  intros Hc Hd. set (h := fun t : R => V (map f (set_coord X i k t))).
  pose proof (Hc h (fun t => eq_refl)) as D1. pose proof (Hd h (fun t => eq_refl)) as D2.
  rewrite <- (is_derive_unique _ _ _ D1). apply is_derive_unique; auto.
Qed.
Lemma gen_second X i k j l : rows n X -> length X = N -> (i < N)%nat -> (j < N)%nat -> (k < n)%nat -> (l < n)%nat -> sep (map f X) i ->
  is_second_I Ival f X i k j l
    (sumn m (fun a => sumn m (fun b => J (nth i X []) a k * g2 (map f X) i j a b * J (nth j X []) b l))
     + if (i =? j)%nat then sumn m (fun a => g (map f X) i a * H (nth i X []) a k l) else 0).
Proof using Hmaps HJ HH HG HG2 Hopen.
  intros HX HN HiN HjN Hk Hl Hs D HD. assert (Hi : (i < length X)%nat) by lia. assert (Hj : (j < length X)%nat) by lia. assert (Hx : length (nth i X []) = n) by (apply HX, nth_In; auto). assert (Hxj : length (nth j X []) = n) by (apply HX, nth_In; auto).
  pose proof (phi_path (nth j X []) l Hxj Hl) as Hp. set (phi := fun t : R => f (set_at l t (nth j X []))) in *. set (phi' := fun b => J (nth j X []) b l) in *.
  assert (Hst : phi (coord X j l) = row (map f X) j) by (unfold phi; apply phi_start; auto; lia).
  pose proof (map_f_rows n m f Hmaps X HX) as HY.
  assert (HLY : length (map f X) = N) by (rewrite map_length; auto).
  pose proof (Hopen phi phi' (coord X j l) (map f X) i j Hp HY HLY HiN HjN Hst Hs) as Ho.
  set (xi := fun t : R => nth i (set_coord X j l t) []).
  assert (Hxi : forall t : R, xi t = if (i =? j)%nat then set_at l t (nth i X []) else nth i X []).
  { intros t. unfold xi, set_coord. rewrite nth_set_at by auto. destruct (Nat.eqb_spec i j) as [->|]; auto. }
  assert (Eloc : locally (coord X j l) (fun t : R => sumn m (fun a => g (set_at j (phi t) (map f X)) i a * J (xi t) a k) = D t)).
  { generalize (filter_and _ _ Ho HD). apply filter_imp.
    assert (G0 : forall t : R, sep (set_at j (phi t) (map f X)) i -> is_partial_I Ival f (set_coord X j l t) i k (D t) -> sumn m (fun a => g (set_at j (phi t) (map f X)) i a * J (xi t) a k) = D t).
    { intros t Hst' HDt. apply (partial_uniq (set_coord X j l t) i k); auto. unfold phi. rewrite <- map_coord. unfold xi.
      apply gen_partial; auto.
      - apply set_coord_rows; auto.
      - unfold set_coord. rewrite set_at_length. auto.
      - rewrite map_coord. exact Hst'. }
    intros t [H1 H2]. apply (G0 t H1 H2). }
  apply (is_derive_ext_loc _ _ _ _ Eloc).
  replace (_ + _) with (sumn m (fun a => (sumn m (fun b => g2 (map f X) i j a b * phi' b)) * J (nth i X []) a k + g (map f X) i a * (if (i =? j)%nat then H (nth i X []) a k l else 0))).
  - apply (sumn_derive m (fun a (t : R) => g (set_at j (phi t) (map f X)) i a * J (xi t) a k)). intros a Ha.
    apply (prod_derive (fun t : R => g (set_at j (phi t) (map f X)) i a) (fun t : R => J (xi t) a k) _ (sumn m (fun b => g2 (map f X) i j a b * phi' b)) (if (i =? j)%nat then H (nth i X []) a k l else 0)).
    + apply (HG2 phi phi' (coord X j l) (map f X) i j a); auto.
    + apply (is_derive_ext (fun t : R => J (if (i =? j)%nat then set_at l t (nth i X []) else nth i X []) a k)); [intros t; rewrite Hxi; auto|].
      destruct (Nat.eqb_spec i j) as [<-|]; [|apply @is_derive_const]. apply (proj1 (HH (nth i X []) Hx a k l Ha Hk Hl)).
    + rewrite Hst. unfold row. rewrite set_at_same by (rewrite map_length; auto). f_equal. f_equal. rewrite Hxi. destruct (Nat.eqb_spec i j) as [<-|]; auto.
      f_equal. unfold coord. rewrite set_at_same; auto. lia.
  - rewrite sumn_plus. f_equal.
    + apply sumn_ext. intros a Ha. rewrite Rmult_comm, <- sumn_scal. apply sumn_ext. intros b Hb. unfold phi'. ring.
    + destruct (i =? j)%nat; auto. apply sumn_zero. intros; ring.
Qed.
End Generic.

(** * The two indicators *)
Section Ind.
Variables (m : nat) (dom : list R -> list R -> Prop) (q : kern).
Hypothesis HK : kernel_ok m dom (k_ q) (k_dx q) (k_dx2 q) (k_dxdy q).

Definition sepY (Y : list (list R)) (i : nat) : Prop := forall j, (j < length Y)%nat -> j <> i -> dom (row Y i) (row Y j).
Lemma sepY_open phi phi' t0 Y i j : path m phi phi' t0 -> rows m Y -> (i < length Y)%nat -> (j < length Y)%nat -> phi t0 = row Y j -> sepY Y i ->
  locally t0 (fun t : R => sepY (set_at j (phi t) Y) i).
Proof using HK.
  intros Hp HY Hi Hj E Hs.
  assert (HA : locally t0 (fun t : R => forall l, In l (seq 0 (length Y)) -> l <> i -> dom (if (i =? j)%nat then phi t else row Y i) (if (l =? j)%nat then phi t else row Y l))).
  { apply (locally_all (seq 0 (length Y)) (fun l (t : R) => l <> i -> dom (if (i =? j)%nat then phi t else row Y i) (if (l =? j)%nat then phi t else row Y l))). intros l Hl. apply in_seq in Hl. assert (Hll : (l < length Y)%nat) by lia.
    destruct (Nat.eq_dec l i) as [->|Hli]; [apply filter_forall; congruence|]. assert (Hd := Hs l ltac:(lia) Hli).
    destruct (Nat.eqb_spec i j) as [->|Hij].
    - destruct (Nat.eqb_spec l j); [congruence|]. rewrite <- E in Hd.
      generalize (ko_open _ _ _ _ _ _ HK phi phi' t0 (row Y l) (HY (row Y l) (nth_In Y [] Hll)) Hp Hd). apply filter_imp. auto.
    - destruct (Nat.eqb_spec l j) as [->|Hlj]; [|apply filter_forall; auto]. apply (ko_dsym _ _ _ _ _ _ HK) in Hd. rewrite <- E in Hd.
      generalize (ko_open _ _ _ _ _ _ HK phi phi' t0 (row Y i) (HY (row Y i) (nth_In Y [] Hi)) Hp Hd). apply filter_imp. intros t Ht _. apply (ko_dsym _ _ _ _ _ _ HK). exact Ht. }
  revert HA. apply filter_imp. intros t Ht l Hl Hne. rewrite set_at_length in Hl. rewrite !row_set_at by auto. apply Ht; auto. apply in_seq. lia.
Qed.
Lemma dom_open phi phi' t0 Y i j r : path m phi phi' t0 -> length r = m -> (i < length Y)%nat -> (j < length Y)%nat -> phi t0 = row Y j -> dom (row Y i) r ->
  locally t0 (fun t : R => dom (row (set_at j (phi t) Y) i) r).
Proof using HK.
  intros Hp Hr Hi Hj E Hd.
  assert (HA : locally t0 (fun t : R => dom (if (i =? j)%nat then phi t else row Y i) r)).
  { destruct (Nat.eqb_spec i j) as [->|Hij]; [|apply filter_forall; auto]. rewrite <- E in Hd. apply (ko_open _ _ _ _ _ _ HK phi phi' t0 r Hr Hp Hd). }
  revert HA. apply filter_imp. intros t Ht. rewrite row_set_at by auto. exact Ht.
Qed.

Section Plain.
Variable Ref : list (list R).
Hypothesis HR : rows m Ref.
Hypothesis HR0 : Ref <> [].
Definition sepm (Y : list (list R)) (i : nat) : Prop := sepY Y i /\ forall r, In r Ref -> dom (row Y i) r.
Definition Vm (Y : list (list R)) : R := mean_k (k_ q) Ref Ref + mean_k (k_ q) Y Y - 2 * mean_k (k_ q) Ref Y.
(** the right second derivatives in objective space *)
Definition c2 (Y : list (list R)) (i j a b : nat) : R :=
  if (i =? j)%nat then mmd_dY2 q Y Ref i i a b else 2 * k_dxdy q (row Y i) (row Y j) a b / INR (length Y) ^ 2.
Lemma plain_G phi phi' t0 Y i : path m phi phi' t0 -> rows m Y -> (i < length Y)%nat -> phi t0 = row Y i -> sepm Y i ->
  is_derive (fun t : R => Vm (set_at i (phi t) Y)) t0 (sumn m (fun a => mmd_dY q Y Ref i a * phi' a)).
Proof using HK HR HR0.
  intros Hp HY Hi E [Hs1 Hs2]. apply (mmd_path_derive m dom q HK phi phi' t0 Hp Y i HY Hi E Ref HR HR0); auto. intros j Hj. apply Hs2, nth_In; auto.
Qed.
Lemma plain_G2 phi phi' t0 Y i j a : path m phi phi' t0 -> rows m Y -> (i < length Y)%nat -> (j < length Y)%nat -> (a < m)%nat -> phi t0 = row Y j -> sepm Y i ->
  is_derive (fun t : R => mmd_dY q (set_at j (phi t) Y) Ref i a) t0 (sumn m (fun b => c2 Y i j a b * phi' b)).
Proof using HK HR HR0.
  intros Hp HY Hi Hj Ha E [Hs1 Hs2]. unfold c2. destruct (Nat.eqb_spec i j) as [->|Hij].
  - apply (dY_same m dom q HK phi phi' t0 Hp Y j HY Hj E Ref a Ha HR HR0); auto. intros l Hl. apply Hs2, nth_In; auto.
  - apply (dY_diff m dom q HK phi phi' t0 Hp Y j HY Hj E Ref i a Ha Hi Hij). apply Hs1; auto.
Qed.
Lemma plain_open phi phi' t0 Y i j : path m phi phi' t0 -> rows m Y -> (i < length Y)%nat -> (j < length Y)%nat -> phi t0 = row Y j -> sepm Y i ->
  locally t0 (fun t : R => sepm (set_at j (phi t) Y) i).
Proof using HK HR.
  intros Hp HY Hi Hj E [Hs1 Hs2]. apply filter_and; [apply (sepY_open phi phi'); auto|].
  apply (locally_all Ref (fun r (t : R) => dom (row (set_at j (phi t) Y) i) r)). intros r Hr. apply (dom_open phi phi'); auto.
Qed.
End Plain.

Section Matched.
Variables (beta : R) (M : list (list R)).
Hypothesis HM : rows m M.
Definition sepmm (Y : list (list R)) (i : nat) : Prop := sepY Y i /\ dom (row Y i) (row M i).
Definition Vmm (Y : list (list R)) : R := beta * mean_k (k_ q) Y Y + sumR (map (fun yr => 2 - 2 * k_ q (fst yr) (snd yr)) (combine Y M)) / INR (length Y).
Definition cc2 (Y : list (list R)) (i j a b : nat) : R :=
  if (i =? j)%nat then mmdm_dY2 q beta Y M i i a b else 2 * beta * k_dxdy q (row Y i) (row Y j) a b / INR (length Y) ^ 2.
Lemma matched_G phi phi' t0 Y i : path m phi phi' t0 -> rows m Y -> length Y = length M -> (i < length M)%nat -> phi t0 = row Y i -> sepmm Y i ->
  is_derive (fun t : R => Vmm (set_at i (phi t) Y)) t0 (sumn m (fun a => mmdm_dY q beta Y M i a * phi' a)).
Proof using HK HM.
  intros Hp HY HL Hi E [Hs1 Hs2]. rewrite <- HL in Hi. apply (mmdm_path_derive m dom q HK phi phi' t0 Hp Y i HY Hi E beta M HM); auto.
Qed.
Lemma matched_G2 phi phi' t0 Y i j a : path m phi phi' t0 -> rows m Y -> length Y = length M -> (i < length M)%nat -> (j < length M)%nat -> (a < m)%nat -> phi t0 = row Y j -> sepmm Y i ->
  is_derive (fun t : R => mmdm_dY q beta (set_at j (phi t) Y) M i a) t0 (sumn m (fun b => cc2 Y i j a b * phi' b)).
Proof using HK HM.
  intros Hp HY HL Hi Hj Ha E [Hs1 Hs2]. rewrite <- HL in Hi, Hj. unfold cc2. destruct (Nat.eqb_spec i j) as [->|Hij].
  - apply (mdY_same m dom q HK phi phi' t0 Hp Y j HY Hj E beta M a Ha HM); auto.
  - apply (mdY_diff m dom q HK phi phi' t0 Hp Y j HY Hj E beta M i a Ha Hi Hij). apply Hs1; auto.
Qed.
Lemma matched_open phi phi' t0 Y i j : path m phi phi' t0 -> rows m Y -> length Y = length M -> (i < length M)%nat -> (j < length M)%nat -> phi t0 = row Y j -> sepmm Y i ->
  locally t0 (fun t : R => sepmm (set_at j (phi t) Y) i).
Proof using HK HM.
  intros Hp HY HL Hi Hj E [Hs1 Hs2]. assert (Hl : length (row M i) = m) by (apply HM, nth_In; auto). rewrite <- HL in Hi, Hj. apply filter_and; [apply (sepY_open phi phi'); auto|].
  apply (dom_open phi phi'); auto.
Qed.
End Matched.
End Ind.

(** * What the functions return *)
Record smooth_m (o : mmd) : Prop := {
  sx_maps : maps (m_nvar o) (m_nobj o) (m_func o);
  sx_jac : forall x, length x = m_nvar o -> jac_at (m_nvar o) (m_nobj o) (m_func o) (m_jac o x) x;
  sx_hess : forall x, length x = m_nvar o -> hess_at (m_nvar o) (m_nobj o) (m_jac o) (m_hess o x) x }.
Definition agree_m (o : mmd) (X : list (list R)) (Y : option (list (list R))) (J : option (nat -> nat -> nat -> R)) : Prop :=
  (Y = None \/ Y = Some (map (m_func o) X)) /\ (J = None \/ J = Some (fun i => m_jac o (nth i X []))).

Lemma check_ok n X : rows n X -> X <> [] -> check_X n X = X.
Proof. intros HX H0. unfold check_X. rewrite (cols_X n X) by auto. rewrite Nat.eqb_refl. auto. Qed.
Lemma agree_m_YJ o X Y J : smooth_m o -> rows (m_nvar o) X -> X <> [] -> agree_m o X Y J ->
  mmd_YJ o X Y J = Ok (map (m_func o) X, fun i => m_jac o (nth i X [])).
Proof.
  intros Hs HX H0 Hag. assert (Hc : n_cols (map (m_func o) X) = m_nobj o).
  { destruct X as [|x X]; [congruence|]. apply (sx_maps o Hs). apply HX. simpl; auto. }
  unfold mmd_YJ. destruct Hag as [[->| ->] [->| ->]]; rewrite Hc, Nat.eqb_refl; reflexivity.
Qed.
Lemma flat_nth N d (f : nat -> nat -> nat -> nat -> R) a k b l z : (a < N)%nat -> (b < N)%nat -> (k < d)%nat -> (l < d)%nat ->
  nth (b * d + l) (nth (a * d + k) (flat N d f) []) z = f a k b l.
Proof.
  intros Ha Hb Hk Hl. unfold flat. rewrite mk2_nth by nia. rewrite !div_block, !mod_block by auto. auto.
Qed.
Lemma mmd_deriv_value q o X Y J hes : smooth_m o -> m_ref o <> [] -> rows (m_nvar o) X -> X <> [] -> agree_m o X Y J ->
  exists G H, mmd_derivatives q o X Y J hes = Ok (G, if hes then Some H else None) /\
   (forall i k, (i < length X)%nat -> (k < m_nvar o)%nat ->
     nth k (nth i G []) 0 = sumn (m_nobj o) (fun a => mmd_dY q (map (m_func o) X) (m_ref o) i a * m_jac o (nth i X []) a k)) /\
   (forall i k j l, (i < length X)%nat -> (j < length X)%nat -> (k < m_nvar o)%nat -> (l < m_nvar o)%nat ->
     nth (j * m_nvar o + l) (nth (i * m_nvar o + k) H []) 0 =
       assemble (m_nobj o) (mmd_dY2 q (map (m_func o) X) (m_ref o)) (mmd_dY q (map (m_func o) X) (m_ref o)) (fun i => m_jac o (nth i X [])) (fun i => m_hess o (nth i X [])) i k j l).
Proof.
  intros Hs HR HX H0 Hag. unfold mmd_derivatives. rewrite check_ok by auto. rewrite (agree_m_YJ o X Y J) by auto. cbn [bind]. cbv zeta.
  rewrite (map_length (m_func o) X), Nat.eqb_refl. cbn [negb]. rewrite (cols_X (m_nvar o) X) by auto. destruct (m_ref o) as [|r0 Ref]; [congruence|].
  eexists _, _. split; [destruct hes; reflexivity|]. split.
  - intros i k Hi Hk. rewrite mk2_nth by auto. auto.
  - intros i k j l Hi Hj Hk Hl. rewrite flat_nth by auto. auto.
Qed.
Lemma mmdm_deriv_value q o s mt X Y J hes M : smooth_m o -> rows (m_nvar o) X -> X <> [] -> agree_m o X Y J ->
  mt (map (m_func o) X) = Ok M -> length M = length X ->
  exists G H s', mmdm_derivatives q o s mt X Y J hes = Ok (G, if hes then Some H else None, s') /\
   let bg := fst (traced (mm_grad s) (shape_of (map (m_func o) X) M) (mm_beta s)) in
   let bh := fst (traced (mm_hess s) (shape_of (map (m_func o) X) M) (mm_beta s)) in
   (forall i k, (i < length X)%nat -> (k < m_nvar o)%nat ->
     nth k (nth i G []) 0 = sumn (m_nobj o) (fun a => mmdm_dY q bg (map (m_func o) X) M i a * m_jac o (nth i X []) a k)) /\
   (forall i k j l, (i < length X)%nat -> (j < length X)%nat -> (k < m_nvar o)%nat -> (l < m_nvar o)%nat ->
     nth (j * m_nvar o + l) (nth (i * m_nvar o + k) H []) 0 =
       assemble (m_nobj o) (mmdm_dY2 q bh (map (m_func o) X) M) (mmdm_dY q bg (map (m_func o) X) M) (fun i => m_jac o (nth i X [])) (fun i => m_hess o (nth i X [])) i k j l).
Proof.
  intros Hs HX H0 Hag Hmt HL. unfold mmdm_derivatives. rewrite check_ok by auto. rewrite (agree_m_YJ o X Y J) by auto. cbn [bind]. rewrite Hmt. cbn [bind]. cbv zeta.
  rewrite (map_length (m_func o) X), HL, Nat.eqb_refl. cbn [negb andb]. rewrite (cols_X (m_nvar o) X) by auto.
  destruct (traced (mm_grad s) _ _) as [bg cg]. cbn [fst].
  set (bh := fst (traced (mm_hess s) (shape_of (map (m_func o) X) M) (mm_beta s))).
  exists (mk2 (length X) (m_nvar o) (fun i k => sumn (m_nobj o) (fun a => m_jac o (nth i X []) a k * mmdm_dY q bg (map (m_func o) X) M i a))),
    (flat (length X) (m_nvar o) (assemble (m_nobj o) (mmdm_dY2 q bh (map (m_func o) X) M) (mmdm_dY q bg (map (m_func o) X) M) (fun i => m_jac o (nth i X [])) (fun i => m_hess o (nth i X [])))),
    (if hes then mkMM (mm_beta s) cg (snd (traced (mm_hess s) (shape_of (map (m_func o) X) M) (mm_beta s))) else mkMM (mm_beta s) cg (mm_hess s)).
  split; [destruct hes; [|reflexivity]; unfold bh; destruct (traced (mm_hess s) _ _); reflexivity|]. split.
  - intros i k Hi Hk. rewrite mk2_nth by auto. apply sumn_ext. intros; ring.
  - intros i k j l Hi Hj Hk Hl. rewrite flat_nth by auto. auto.
Qed.

(** the off-diagonal blocks are right if the mixed derivative is symmetric *)
Lemma dY2_c2 q Y Ref i j a b : (i <> j -> k_dxdy q (row Y j) (row Y i) a b = k_dxdy q (row Y i) (row Y j) a b) -> mmd_dY2 q Y Ref i j a b = c2 q Ref Y i j a b.
Proof. intros E. unfold c2, mmd_dY2. destruct (Nat.eqb_spec i j) as [->|Hn]; [rewrite Nat.eqb_refl; auto|]. rewrite E; auto. Qed.
Lemma dY2_cc2 q beta Y M i j a b : (i <> j -> k_dxdy q (row Y j) (row Y i) a b = k_dxdy q (row Y i) (row Y j) a b) -> mmdm_dY2 q beta Y M i j a b = cc2 q beta M Y i j a b.
Proof. intros E. unfold cc2, mmdm_dY2. destruct (Nat.eqb_spec i j) as [->|Hn]; [rewrite Nat.eqb_refl; auto|]. rewrite E; auto. Qed.

(** * MMD *)
Theorem mmd_gradient : forall q dom o X Y J hes i k, kernel_ok (m_nobj o) dom (k_ q) (k_dx q) (k_dx2 q) (k_dxdy q) ->
  smooth_m o -> m_ref o <> [] -> rows (m_nobj o) (m_ref o) -> rows (m_nvar o) X -> agree_m o X Y J ->
  (i < length X)%nat -> (k < m_nvar o)%nat -> sepm dom (m_ref o) (map (m_func o) X) i ->
  exists G H, mmd_derivatives q o X Y J hes = Ok (G, H) /\
    is_partial_I (MMD2 (k_ q) (m_ref o)) (m_func o) X i k (nth k (nth i G []) 0).
Proof.
  intros q dom o X Y J hes i k HK Hs HR0 HR HX Hag Hi Hk Hsep. assert (HX0 : X <> []) by (destruct X; simpl in *; [lia|congruence]).
  destruct (mmd_deriv_value q o X Y J hes Hs HR0 HX HX0 Hag) as (G & H & E & EG & EH). eexists G, _. split; [exact E|]. rewrite EG by auto.
  apply (gen_partial (m_nvar o) (m_nobj o) (length X) (m_func o) (m_jac o) (sx_maps o Hs) (sx_jac o Hs) (Vm q (m_ref o)) (fun Y => mmd_dY q Y (m_ref o)) (sepm dom (m_ref o))); auto.
  intros phi phi' t0 Y' i' Hp HY HL Hi' E' Hsp. apply (plain_G (m_nobj o) dom q HK (m_ref o) HR HR0); auto. lia.
Qed.
Theorem mmd_hessian : forall q dom o X Y J i k j l, kernel_ok (m_nobj o) dom (k_ q) (k_dx q) (k_dx2 q) (k_dxdy q) ->
  smooth_m o -> m_ref o <> [] -> rows (m_nobj o) (m_ref o) -> rows (m_nvar o) X -> agree_m o X Y J ->
  (i < length X)%nat -> (j < length X)%nat -> (k < m_nvar o)%nat -> (l < m_nvar o)%nat -> sepm dom (m_ref o) (map (m_func o) X) i ->
  (forall a b, (a < m_nobj o)%nat -> (b < m_nobj o)%nat -> i <> j ->
     k_dxdy q (m_func o (nth j X [])) (m_func o (nth i X [])) a b = k_dxdy q (m_func o (nth i X [])) (m_func o (nth j X [])) a b) ->
  exists G H, mmd_derivatives q o X Y J true = Ok (G, Some H) /\
    is_second_I (MMD2 (k_ q) (m_ref o)) (m_func o) X i k j l (nth (j * m_nvar o + l) (nth (i * m_nvar o + k) H []) 0).
Proof.
  intros q dom o X Y J i k j l HK Hs HR0 HR HX Hag Hi Hj Hk Hl Hsep Hsym. assert (HX0 : X <> []) by (destruct X; simpl in *; [lia|congruence]).
  destruct (mmd_deriv_value q o X Y J true Hs HR0 HX HX0 Hag) as (G & H & E & EG & EH). exists G, H. split; [exact E|]. rewrite EH by auto.
  assert (D := gen_second (m_nvar o) (m_nobj o) (length X) (m_func o) (m_jac o) (m_hess o) (sx_maps o Hs) (sx_jac o Hs) (sx_hess o Hs) (Vm q (m_ref o)) (fun Y => mmd_dY q Y (m_ref o)) (c2 q (m_ref o)) (sepm dom (m_ref o))).
  unfold assemble. rewrite (sumn_ext (m_nobj o) (fun a => sumn (m_nobj o) (fun b => m_jac o (nth i X []) a k * mmd_dY2 q (map (m_func o) X) (m_ref o) i j a b * m_jac o (nth j X []) b l))
    (fun a => sumn (m_nobj o) (fun b => m_jac o (nth i X []) a k * c2 q (m_ref o) (map (m_func o) X) i j a b * m_jac o (nth j X []) b l))).
  - apply D; auto.
    + intros phi phi' t0 Y' i' Hp HY HL Hi' E' Hsp. apply (plain_G (m_nobj o) dom q HK (m_ref o) HR HR0); auto. lia.
    + intros phi phi' t0 Y' i' j' a Hp HY HL Hi' Hj' Ha E' Hsp. apply (plain_G2 (m_nobj o) dom q HK (m_ref o) HR HR0); auto; lia.
    + intros phi phi' t0 Y' i' j' Hp HY HL Hi' Hj' E' Hsp. apply (plain_open (m_nobj o) dom q HK (m_ref o) HR phi phi'); auto; lia.
  - intros a Ha. apply sumn_ext. intros b Hb. rewrite dY2_c2; auto. intros Hij. unfold row. rewrite !nth_mapf by auto. auto.
Qed.
Theorem mmdm_gradient : forall q dom o s mt X Y J hes i k M, kernel_ok (m_nobj o) dom (k_ q) (k_dx q) (k_dx2 q) (k_dxdy q) ->
  smooth_m o -> rows (m_nvar o) X -> agree_m o X Y J -> mt (map (m_func o) X) = Ok M -> length M = length X -> rows (m_nobj o) M ->
  (i < length X)%nat -> (k < m_nvar o)%nat -> sepmm dom M (map (m_func o) X) i ->
  exists G H s', mmdm_derivatives q o s mt X Y J hes = Ok (G, H, s') /\
    is_partial_I (MMDM (k_ q) (fst (traced (mm_grad s) (shape_of (map (m_func o) X) M) (mm_beta s))) M) (m_func o) X i k (nth k (nth i G []) 0).
Proof.
  intros q dom o s mt X Y J hes i k M HK Hs HX Hag Hmt HL HM Hi Hk Hsep. assert (HX0 : X <> []) by (destruct X; simpl in *; [lia|congruence]).
  destruct (mmdm_deriv_value q o s mt X Y J hes M Hs HX HX0 Hag Hmt HL) as (G & H & s' & E & EG & EH). eexists G, _, s'. split; [exact E|]. rewrite EG by auto.
  set (bg := fst _).
  apply (gen_partial (m_nvar o) (m_nobj o) (length M) (m_func o) (m_jac o) (sx_maps o Hs) (sx_jac o Hs) (Vmm q bg M) (fun Y => mmdm_dY q bg Y M) (sepmm dom M)); auto; try lia.
  intros phi phi' t0 Y' i' Hp HY HL' Hi' E' Hsp. apply (matched_G (m_nobj o) dom q HK bg M HM); auto.
Qed.
Theorem mmdm_hessian : forall q dom o s mt X Y J i k j l M, kernel_ok (m_nobj o) dom (k_ q) (k_dx q) (k_dx2 q) (k_dxdy q) ->
  smooth_m o -> rows (m_nvar o) X -> agree_m o X Y J -> mt (map (m_func o) X) = Ok M -> length M = length X -> rows (m_nobj o) M ->
  (i < length X)%nat -> (j < length X)%nat -> (k < m_nvar o)%nat -> (l < m_nvar o)%nat -> sepmm dom M (map (m_func o) X) i ->
  (forall a b, (a < m_nobj o)%nat -> (b < m_nobj o)%nat -> i <> j ->
     k_dxdy q (m_func o (nth j X [])) (m_func o (nth i X [])) a b = k_dxdy q (m_func o (nth i X [])) (m_func o (nth j X [])) a b) ->
  let bg := fst (traced (mm_grad s) (shape_of (map (m_func o) X) M) (mm_beta s)) in
  fst (traced (mm_hess s) (shape_of (map (m_func o) X) M) (mm_beta s)) = bg ->
  exists G H s', mmdm_derivatives q o s mt X Y J true = Ok (G, Some H, s') /\
    is_second_I (MMDM (k_ q) bg M) (m_func o) X i k j l (nth (j * m_nvar o + l) (nth (i * m_nvar o + k) H []) 0).
Proof.
  intros q dom o s mt X Y J i k j l M HK Hs HX Hag Hmt HL HM Hi Hj Hk Hl Hsep Hsym bg Hbg. assert (HX0 : X <> []) by (destruct X; simpl in *; [lia|congruence]).
  destruct (mmdm_deriv_value q o s mt X Y J true M Hs HX HX0 Hag Hmt HL) as (G & H & s' & E & EG & EH). exists G, H, s'. split; [exact E|]. rewrite EH by auto.
  rewrite Hbg. fold bg.
  assert (D := gen_second (m_nvar o) (m_nobj o) (length M) (m_func o) (m_jac o) (m_hess o) (sx_maps o Hs) (sx_jac o Hs) (sx_hess o Hs) (Vmm q bg M) (fun Y => mmdm_dY q bg Y M) (cc2 q bg M) (sepmm dom M)).
  unfold assemble. rewrite (sumn_ext (m_nobj o) (fun a => sumn (m_nobj o) (fun b => m_jac o (nth i X []) a k * mmdm_dY2 q bg (map (m_func o) X) M i j a b * m_jac o (nth j X []) b l))
    (fun a => sumn (m_nobj o) (fun b => m_jac o (nth i X []) a k * cc2 q bg M (map (m_func o) X) i j a b * m_jac o (nth j X []) b l))).
  - apply D; auto; try lia.
    + intros phi phi' t0 Y' i' Hp HY HL' Hi' E' Hsp. apply (matched_G (m_nobj o) dom q HK bg M HM); auto.
    + intros phi phi' t0 Y' i' j' a Hp HY HL' Hi' Hj' Ha E' Hsp. apply (matched_G2 (m_nobj o) dom q HK bg M HM); auto.
    + intros phi phi' t0 Y' i' j' Hp HY HL' Hi' Hj' E' Hsp. apply (matched_open (m_nobj o) dom q HK M HM phi phi'); auto.
  - intros a Ha. apply sumn_ext. intros b Hb. rewrite dY2_cc2; auto. intros Hij. unfold row. rewrite !nth_mapf by auto. auto.
Qed.
