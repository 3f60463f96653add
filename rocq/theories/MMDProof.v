(** Derivatives of sums of kernels along paths of one point. *)
From Coq Require Import List Arith Bool Reals Lia Lra Permutation.
From Coquelicot Require Import Coquelicot.
From Verif Require Import Num Exn ListAux HVDSpec HVDProof NewtonModel NewtonProof HVXModel HVXSpec HVXProof HVChain HVXTop
  RefModel RefProof RefTop IndSpec IndModel IndProof IndGD IndIGD IndTop MMDSpec MMDModel.
Import ListNotations.
Open Scope R_scope.

Ltac eqR := match goal with |- @eq _ ?a ?b => change (@eq R a b) end.
Ltac simplR := unfold minus, plus, opp, scal; cbn; unfold mult, Rdiv; cbn; eqR.
Lemma sumR_sumn_nth {A} (g : A -> R) l d : sumR (map g l) = sumn (length l) (fun j => g (nth j l d)).
Proof.
  induction l as [|a l IH]; simpl length; [reflexivity|]. rewrite sumn_first. simpl. rewrite IH. auto.
Qed.
Lemma pairs_sumn k A B : pairs k A B = sumn (length A) (fun j => sumn (length B) (fun l => k (row A j) (row B l))).
Proof.
  unfold pairs, row. rewrite (sumR_sumn_nth _ A []). apply sumn_ext. intros j Hj. apply (sumR_sumn_nth _ B []).
Qed.
Lemma sumn_minus n f g : sumn n (fun i => f i - g i) = sumn n f - sumn n g.
Proof. induction n as [|n IH]; simpl; [ring|]. rewrite IH. ring. Qed.
Lemma sumn_minus' n f g : sumn n (fun i => f i - g i) = sumn n f + - sumn n g.
Proof. apply sumn_minus. Qed.
Lemma sumn_replace N i A g : (i < N)%nat -> sumn N (fun j => if (j =? i)%nat then A else g j) = sumn N g - g i + A.
Proof.
  induction N as [|N IH]; intros Hi; [lia|]. simpl. destruct (Nat.eq_dec i N) as [->|Hne].
  - rewrite Nat.eqb_refl. rewrite (sumn_ext N (fun j => if (j =? N)%nat then A else g j) g); [ring|]. intros j Hj. destruct (Nat.eqb_spec j N); [lia|auto].
  - rewrite IH by lia. destruct (Nat.eqb_spec N i); [lia|]. ring.
Qed.
Lemma cross_sum N i g : (i < N)%nat ->
  sumn N (fun j => sumn N (fun l => if (j =? i)%nat then (if (l =? i)%nat then 0 else g l) else if (l =? i)%nat then g j else 0)) = 2 * (sumn N g - g i).
Proof.
  intros Hi. transitivity (sumn N (fun j => if (j =? i)%nat then sumn N g - g i else g j)).
  - apply sumn_ext. intros j Hj. destruct (j =? i)%nat.
    + rewrite sumn_replace by auto. ring.
    + rewrite sumn_replace by auto. rewrite sumn_zero by auto. ring.
  - rewrite sumn_replace by auto. ring.
Qed.
Lemma row_set_at i j y A : (i < length A)%nat -> row (set_at i y A) j = if (j =? i)%nat then y else row A j.
Proof. intros Hi. unfold row. apply nth_set_at. auto. Qed.

Section Kernel.
Variables (m : nat) (dom : list R -> list R -> Prop) (q : kern).
Hypothesis HK : kernel_ok m dom (k_ q) (k_dx q) (k_dx2 q) (k_dxdy q).

Section Path.
Variables (phi : R -> list R) (phi' : nat -> R) (t0 : R).
Hypothesis Hpath : path m phi phi' t0.
Variables (Y : list (list R)) (i : nat).
Hypothesis HY : rows m Y.
Hypothesis Hi : (i < length Y)%nat.
Hypothesis H0 : phi t0 = row Y i.
Definition Yt (t : R) : list (list R) := set_at i (phi t) Y.
Definition dg (y : list R) : R := sumn m (fun a => k_dx q (row Y i) y a * phi' a).

Lemma Yt_len t : length (Yt t) = length Y.
Proof using. apply set_at_length. Qed.
Lemma row_Yt t j : row (Yt t) j = if (j =? i)%nat then phi t else row Y j.
Proof using Hi. apply row_set_at, Hi. Qed.
Lemma row_len j : (j < length Y)%nat -> length (row Y j) = m.
Proof using HY. intros Hj. apply HY, nth_In. auto. Qed.
Lemma k1_derive y : length y = m -> dom (row Y i) y -> is_derive (fun t : R => k_ q (phi t) y) t0 (dg y).
Proof using HK Hpath HY Hi H0. intros Hy Hd. apply (ko_dx _ _ _ _ _ _ HK (row Y i) y (row_len i Hi) Hy Hd phi phi' t0 Hpath H0). Qed.
Lemma k2_derive y : length y = m -> dom (row Y i) y -> is_derive (fun t : R => k_ q y (phi t)) t0 (dg y).
Proof using HK Hpath HY Hi H0.
  intros Hy Hd. apply (is_derive_ext (fun t : R => k_ q (phi t) y)); [|apply k1_derive; auto].
  intros t. apply (ko_sym _ _ _ _ _ _ HK); auto. apply Hpath.
Qed.
Lemma YY_derive : (forall j, (j < length Y)%nat -> j <> i -> dom (row Y i) (row Y j)) ->
  is_derive (fun t : R => pairs (k_ q) (Yt t) (Yt t)) t0 (2 * (sumn (length Y) (fun j => dg (row Y j)) - dg (row Y i))).
Proof using HK Hpath HY Hi H0.
  intros Hd. set (N := length Y) in *.
  apply (is_derive_ext (fun t : R => sumn N (fun j => sumn N (fun l => k_ q (row (Yt t) j) (row (Yt t) l))))).
  { intros t. rewrite pairs_sumn. rewrite !Yt_len. auto. }
  rewrite <- (cross_sum N i (fun j => dg (row Y j))) by auto.
  apply (sumn_derive N (fun j (t : R) => sumn N (fun l => k_ q (row (Yt t) j) (row (Yt t) l)))). intros j Hj.
  apply (sumn_derive N (fun l (t : R) => k_ q (row (Yt t) j) (row (Yt t) l))). intros l Hl.
  apply (is_derive_ext (fun t : R => k_ q (if (j =? i)%nat then phi t else row Y j) (if (l =? i)%nat then phi t else row Y l))).
  { intros t. rewrite !row_Yt by auto. auto. }
  destruct (Nat.eqb_spec j i) as [->|Hji]; destruct (Nat.eqb_spec l i) as [->|Hli].
  - destruct (ko_diag _ _ _ _ _ _ HK) as (c & Hc). apply (is_derive_ext (fun _ : R => c)); [|apply @is_derive_const]. intros t. symmetry. apply Hc. apply Hpath.
  - apply k1_derive; auto. apply row_len; auto.
  - apply k2_derive; auto. apply row_len; auto.
  - apply @is_derive_const.
Qed.
Lemma RY_derive Ref : rows m Ref -> (forall j, (j < length Ref)%nat -> dom (row Y i) (row Ref j)) ->
  is_derive (fun t : R => pairs (k_ q) Ref (Yt t)) t0 (sumn (length Ref) (fun j => dg (row Ref j))).
Proof using HK Hpath HY Hi H0.
  intros HR Hd. set (N := length Y) in *.
  apply (is_derive_ext (fun t : R => sumn (length Ref) (fun j => sumn N (fun l => k_ q (row Ref j) (row (Yt t) l))))).
  { intros t. rewrite pairs_sumn. rewrite !Yt_len. auto. }
  apply (sumn_derive (length Ref) (fun j (t : R) => sumn N (fun l => k_ q (row Ref j) (row (Yt t) l)))). intros j Hj.
  replace (dg (row Ref j)) with (sumn N (fun l => if (l =? i)%nat then dg (row Ref j) else 0)) by (rewrite sumn_replace by auto; rewrite sumn_zero by auto; ring).
  apply (sumn_derive N (fun l (t : R) => k_ q (row Ref j) (row (Yt t) l))). intros l Hl.
  apply (is_derive_ext (fun t : R => k_ q (row Ref j) (if (l =? i)%nat then phi t else row Y l))).
  { intros t. rewrite row_Yt by auto. auto. }
  destruct (Nat.eqb_spec l i) as [->|Hli].
  - apply k2_derive; auto. apply HR, nth_In; auto.
  - apply @is_derive_const.
Qed.
Lemma mean_k_len k A B : mean_k k A B = / (INR (length A) * INR (length B)) * pairs k A B.
Proof using. unfold mean_k, Rdiv. ring. Qed.
Lemma dg_sum (n : nat) (c : nat -> R) (A : list (list R)) : sumn n (fun j => c j * dg (row A j)) = sumn m (fun a => sumn n (fun j => c j * k_dx q (row Y i) (row A j) a) * phi' a).
Proof using.
  unfold dg. transitivity (sumn n (fun j => sumn m (fun a => c j * k_dx q (row Y i) (row A j) a * phi' a))).
  - apply sumn_ext. intros j Hj. rewrite <- sumn_scal. apply sumn_ext. intros a Ha. ring.
  - rewrite sumn_swap. apply sumn_ext. intros a Ha. rewrite Rmult_comm, <- sumn_scal. apply sumn_ext. intros; ring.
Qed.

(** the objective space gradient *)
Lemma mmd_path_derive Ref : rows m Ref -> Ref <> [] -> (forall j, (j < length Y)%nat -> j <> i -> dom (row Y i) (row Y j)) ->
  (forall j, (j < length Ref)%nat -> dom (row Y i) (row Ref j)) ->
  is_derive (fun t : R => mean_k (k_ q) Ref Ref + mean_k (k_ q) (Yt t) (Yt t) - 2 * mean_k (k_ q) Ref (Yt t)) t0
    (sumn m (fun a => mmd_dY q Y Ref i a * phi' a)).
Proof using HK Hpath HY Hi H0.
  intros HR HR0 Hd1 Hd2. pose proof (YY_derive Hd1) as D1. pose proof (RY_derive Ref HR Hd2) as D2.
  set (N := length Y) in *. set (M := length Ref) in *.
  assert (HN : INR N <> 0) by (apply not_0_INR; lia). assert (HM : INR M <> 0) by (apply not_0_INR; unfold M; destruct Ref; simpl; [congruence|lia]).
  apply (is_derive_ext (fun t : R => plus (mean_k (k_ q) Ref Ref) (minus (scal (/ (INR N * INR N)) (pairs (k_ q) (Yt t) (Yt t))) (scal (2 * / (INR M * INR N)) (pairs (k_ q) Ref (Yt t)))))).
  { intros t. rewrite !(mean_k_len _ _ (Yt t)). rewrite !Yt_len. fold N M. simplR. ring. }
  replace (sumn m _) with (plus 0 (minus (scal (/ (INR N * INR N)) (2 * (sumn N (fun j => dg (row Y j)) - dg (row Y i)))) (scal (2 * / (INR M * INR N)) (sumn M (fun j => dg (row Ref j)))))).
  - apply @is_derive_plus; [apply @is_derive_const|]. apply @is_derive_minus; apply @is_derive_scal; auto.
  - assert (E1 : sumn N (fun j => dg (row Y j)) - dg (row Y i) = sumn m (fun a => (sumn N (fun j => k_dx q (row Y i) (row Y j) a) - k_dx q (row Y i) (row Y i) a) * phi' a)).
    { rewrite (sumn_ext N (fun j => dg (row Y j)) (fun j => 1 * dg (row Y j))) by (intros; ring). rewrite dg_sum. unfold dg. rewrite <- sumn_minus. apply sumn_ext. intros a Ha. rewrite (sumn_ext N (fun j => 1 * k_dx q (row Y i) (row Y j) a) (fun j => k_dx q (row Y i) (row Y j) a)) by (intros; ring). ring. }
    assert (E2 : sumn M (fun j => dg (row Ref j)) = sumn m (fun a => sumn M (fun j => k_dx q (row Y i) (row Ref j) a) * phi' a)).
    { rewrite (sumn_ext M (fun j => dg (row Ref j)) (fun j => 1 * dg (row Ref j))) by (intros; ring). rewrite dg_sum. apply sumn_ext. intros a Ha. f_equal. apply sumn_ext. intros; ring. }
    rewrite E1, E2. unfold plus, minus, scal, plus, opp; simpl; unfold mult; simpl. rewrite Rplus_0_l.
    rewrite <- !sumn_scal. rewrite <- sumn_minus'.
    apply sumn_ext. intros a Ha. unfold mmd_dY. fold N M. field. auto.
Qed.

Lemma mmdm_path_derive beta M : rows m M -> length M = length Y -> (forall j, (j < length Y)%nat -> j <> i -> dom (row Y i) (row Y j)) ->
  dom (row Y i) (row M i) ->
  is_derive (fun t : R => beta * mean_k (k_ q) (Yt t) (Yt t) + sumR (map (fun yr => 2 - 2 * k_ q (fst yr) (snd yr)) (combine (Yt t) M)) / INR (length (Yt t))) t0
    (sumn m (fun a => mmdm_dY q beta Y M i a * phi' a)).
Proof using HK Hpath HY Hi H0.
  intros HM HL Hd1 Hd2. pose proof (YY_derive Hd1) as D1.
  set (N := length Y) in *.
  assert (HN : INR N <> 0) by (apply not_0_INR; lia).
  assert (D2 : is_derive (fun t : R => sumR (map (fun yr => 2 - 2 * k_ q (fst yr) (snd yr)) (combine (Yt t) M))) t0 (-2 * dg (row M i))).
  { apply (is_derive_ext (fun t : R => sumn N (fun j => 2 - 2 * k_ q (row (Yt t) j) (row M j)))).
    { intros t. rewrite (sumR_sumn_nth _ _ ([], [])). rewrite combine_length. rewrite !Yt_len, HL, Nat.min_id. apply sumn_ext. intros j Hj.
      rewrite combine_nth by (rewrite Yt_len; auto). auto. }
    replace (-2 * dg (row M i)) with (sumn N (fun j => if (j =? i)%nat then -2 * dg (row M i) else 0)) by (rewrite sumn_replace by auto; rewrite sumn_zero by auto; ring).
    apply (sumn_derive N (fun j (t : R) => 2 - 2 * k_ q (row (Yt t) j) (row M j))). intros j Hj.
    apply (is_derive_ext (fun t : R => plus 2 (scal (-2) (k_ q (if (j =? i)%nat then phi t else row Y j) (row M j))))).
    { intros t. rewrite row_Yt by auto. simplR. ring. }
    destruct (Nat.eqb_spec j i) as [->|Hne].
    - replace (-2 * dg (row M i)) with (plus 0 (scal (-2) (dg (row M i)))) by (unfold plus, scal; simpl; unfold mult; simpl; ring).
      apply @is_derive_plus; [apply @is_derive_const|]. apply @is_derive_scal. apply k1_derive; auto. apply HM, nth_In; lia.
    - apply @is_derive_const. }
  apply (is_derive_ext (fun t : R => plus (scal (beta * / (INR N * INR N)) (pairs (k_ q) (Yt t) (Yt t))) (scal (/ INR N) (sumR (map (fun yr => 2 - 2 * k_ q (fst yr) (snd yr)) (combine (Yt t) M)))))).
  { intros t. rewrite !(mean_k_len _ _ (Yt t)). rewrite !Yt_len. fold N. simplR. ring. }
  replace (sumn m _) with (plus (scal (beta * / (INR N * INR N)) (2 * (sumn N (fun j => dg (row Y j)) - dg (row Y i)))) (scal (/ INR N) (-2 * dg (row M i)))).
  - apply @is_derive_plus; apply @is_derive_scal; auto.
  - assert (E1 : sumn N (fun j => dg (row Y j)) - dg (row Y i) = sumn m (fun a => (sumn N (fun j => k_dx q (row Y i) (row Y j) a) - k_dx q (row Y i) (row Y i) a) * phi' a)).
    { rewrite (sumn_ext N (fun j => dg (row Y j)) (fun j => 1 * dg (row Y j))) by (intros; ring). rewrite dg_sum. unfold dg. rewrite <- sumn_minus. apply sumn_ext. intros a Ha. rewrite (sumn_ext N (fun j => 1 * k_dx q (row Y i) (row Y j) a) (fun j => k_dx q (row Y i) (row Y j) a)) by (intros; ring). ring. }
    rewrite E1. unfold dg, plus, scal; simpl; unfold mult; simpl. rewrite <- !sumn_scal, <- sumn_plus. apply sumn_ext. intros a Ha. unfold mmdm_dY. fold N. field. auto.
Qed.

(** * derivative of the objective space gradient *)
Lemma dx_derive y a : (a < m)%nat -> length y = m -> dom (row Y i) y ->
  is_derive (fun t : R => k_dx q (phi t) y a) t0 (sumn m (fun b => k_dx2 q (row Y i) y a b * phi' b)).
Proof using HK Hpath HY Hi H0. intros Ha Hy Hd. apply (ko_dx2 _ _ _ _ _ _ HK (row Y i) y a (row_len i Hi) Hy Hd Ha phi phi' t0 Hpath H0). Qed.
Lemma dxdy_derive x a : (a < m)%nat -> length x = m -> dom x (row Y i) ->
  is_derive (fun t : R => k_dx q x (phi t) a) t0 (sumn m (fun b => k_dxdy q x (row Y i) a b * phi' b)).
Proof using HK Hpath HY Hi H0. intros Ha Hx Hd. apply (ko_dxdy _ _ _ _ _ _ HK x (row Y i) a Hx (row_len i Hi) Hd Ha phi phi' t0 Hpath H0). Qed.

(** the sum over the other points, without the point itself *)
Definition others (Y : list (list R)) (j a : nat) : R :=
  sumn (length Y) (fun l => k_dx q (row Y j) (row Y l) a) - k_dx q (row Y j) (row Y j) a.
Lemma others_alt Z j a : (j < length Z)%nat -> others Z j a = sumn (length Z) (fun l => if (l =? j)%nat then 0 else k_dx q (row Z j) (row Z l) a).
Proof using. intros Hj. unfold others. rewrite sumn_replace by auto. ring. Qed.
Lemma others_same a : (a < m)%nat -> (forall j, (j < length Y)%nat -> j <> i -> dom (row Y i) (row Y j)) ->
  is_derive (fun t : R => others (Yt t) i a) t0
    (sumn m (fun b => (sumn (length Y) (fun l => k_dx2 q (row Y i) (row Y l) a b) - k_dx2 q (row Y i) (row Y i) a b) * phi' b)).
Proof using HK Hpath HY Hi H0.
  intros Ha Hd. set (N := length Y) in *.
  apply (is_derive_ext (fun t : R => sumn N (fun l => if (l =? i)%nat then 0 else k_dx q (phi t) (row Y l) a))).
  { intros t. rewrite others_alt by (rewrite Yt_len; auto). rewrite !Yt_len. apply sumn_ext. intros l Hl.
    rewrite !row_Yt, Nat.eqb_refl by auto. destruct (l =? i)%nat; auto. }
  replace (sumn m _) with (sumn N (fun l => if (l =? i)%nat then 0 else sumn m (fun b => k_dx2 q (row Y i) (row Y l) a b * phi' b))).
  - apply (sumn_derive N (fun l (t : R) => if (l =? i)%nat then 0 else k_dx q (phi t) (row Y l) a)). intros l Hl.
    destruct (Nat.eqb_spec l i) as [->|Hne]; [apply @is_derive_const|]. apply dx_derive; auto. apply row_len; auto.
  - rewrite sumn_replace by auto. rewrite Rplus_0_r. rewrite sumn_swap. rewrite <- sumn_minus. apply sumn_ext. intros b Hb. 
    rewrite (sumn_ext N (fun l => k_dx2 q (row Y i) (row Y l) a b * phi' b) (fun l => phi' b * k_dx2 q (row Y i) (row Y l) a b)) by (intros; ring). rewrite sumn_scal. ring.
Qed.
Lemma others_diff j a : (a < m)%nat -> (j < length Y)%nat -> j <> i -> dom (row Y j) (row Y i) ->
  is_derive (fun t : R => others (Yt t) j a) t0 (sumn m (fun b => k_dxdy q (row Y j) (row Y i) a b * phi' b)).
Proof using HK Hpath HY Hi H0.
  intros Ha Hj Hji Hd. set (N := length Y) in *.
  apply (is_derive_ext (fun t : R => sumn N (fun l => if (l =? j)%nat then 0 else if (l =? i)%nat then k_dx q (row Y j) (phi t) a else k_dx q (row Y j) (row Y l) a))).
  { intros t. rewrite others_alt by (rewrite Yt_len; auto). rewrite !Yt_len. apply sumn_ext. intros l Hl.
    rewrite !row_Yt by auto. destruct (Nat.eqb_spec j i); [congruence|]. destruct (l =? j)%nat; auto. destruct (l =? i)%nat; auto. }
  replace (sumn m _) with (sumn N (fun l => if (l =? i)%nat then sumn m (fun b => k_dxdy q (row Y j) (row Y i) a b * phi' b) else 0)).
  - apply (sumn_derive N (fun l (t : R) => if (l =? j)%nat then 0 else if (l =? i)%nat then k_dx q (row Y j) (phi t) a else k_dx q (row Y j) (row Y l) a)). intros l Hl.
    destruct (Nat.eqb_spec l j) as [->|Hlj].
    + destruct (Nat.eqb_spec j i); [congruence|]. apply @is_derive_const.
    + destruct (Nat.eqb_spec l i) as [->|Hli]; [|apply @is_derive_const]. apply dxdy_derive; auto. apply row_len; auto.
  - rewrite sumn_replace by auto. rewrite sumn_zero by auto. ring.
Qed.
Lemma dY_others Z Ref j a : mmd_dY q Z Ref j a = 2 * (others Z j a / INR (length Z) ^ 2 - sumn (length Ref) (fun l => k_dx q (row Z j) (row Ref l) a) / (INR (length Z) * INR (length Ref))).
Proof using. reflexivity. Qed.
Lemma mdY_others Z beta M j a : mmdm_dY q beta Z M j a = 2 * (beta * others Z j a / INR (length Z) ^ 2 - k_dx q (row Z j) (row M j) a / INR (length Z)).
Proof using. reflexivity. Qed.

(** change of the gradient at point [i] itself *)
Lemma dY_same Ref a : (a < m)%nat -> rows m Ref -> Ref <> [] -> (forall j, (j < length Y)%nat -> j <> i -> dom (row Y i) (row Y j)) ->
  (forall j, (j < length Ref)%nat -> dom (row Y i) (row Ref j)) ->
  is_derive (fun t : R => mmd_dY q (Yt t) Ref i a) t0 (sumn m (fun b => mmd_dY2 q Y Ref i i a b * phi' b)).
Proof using HK Hpath HY Hi H0.
  intros Ha HR HR0 Hd1 Hd2. pose proof (others_same a Ha Hd1) as D1. set (N := length Y) in *. set (M := length Ref) in *.
  assert (HN : INR N <> 0) by (apply not_0_INR; lia). assert (HM : INR M <> 0) by (apply not_0_INR; unfold M; destruct Ref; simpl; [congruence|lia]).
  assert (D2 : is_derive (fun t : R => sumn M (fun l => k_dx q (phi t) (row Ref l) a)) t0 (sumn M (fun l => sumn m (fun b => k_dx2 q (row Y i) (row Ref l) a b * phi' b)))).
  { apply (sumn_derive M (fun l (t : R) => k_dx q (phi t) (row Ref l) a)). intros l Hl. apply dx_derive; auto. apply HR, nth_In; auto. }
  apply (is_derive_ext (fun t : R => minus (scal (2 / INR N ^ 2) (others (Yt t) i a)) (scal (2 / (INR N * INR M)) (sumn M (fun l => k_dx q (phi t) (row Ref l) a))))).
  { intros t. rewrite dY_others. rewrite !Yt_len. fold N M.
    rewrite (sumn_ext M (fun l => k_dx q (row (Yt t) i) (row Ref l) a) (fun l => k_dx q (phi t) (row Ref l) a)). 
    - simplR. field. auto.
    - intros l Hl. rewrite row_Yt, Nat.eqb_refl by auto. auto. }
  replace (sumn m _) with (minus (scal (2 / INR N ^ 2) (sumn m (fun b => (sumn N (fun l => k_dx2 q (row Y i) (row Y l) a b) - k_dx2 q (row Y i) (row Y i) a b) * phi' b))) (scal (2 / (INR N * INR M)) (sumn M (fun l => sumn m (fun b => k_dx2 q (row Y i) (row Ref l) a b * phi' b))))).
  - apply @is_derive_minus; apply @is_derive_scal; auto.
  - unfold minus, plus, opp, scal; simpl; unfold mult; simpl. rewrite sumn_swap. rewrite <- !sumn_scal. rewrite <- sumn_minus'. apply sumn_ext. intros b Hb.
    rewrite (sumn_ext M (fun l => k_dx2 q (row Y i) (row Ref l) a b * phi' b) (fun l => phi' b * k_dx2 q (row Y i) (row Ref l) a b)) by (intros; ring). rewrite sumn_scal.
    unfold mmd_dY2. rewrite Nat.eqb_refl. fold N M. field. auto.
Qed.
Lemma dY_diff Ref j a : (a < m)%nat -> (j < length Y)%nat -> j <> i -> dom (row Y j) (row Y i) ->
  is_derive (fun t : R => mmd_dY q (Yt t) Ref j a) t0 (sumn m (fun b => 2 * k_dxdy q (row Y j) (row Y i) a b / INR (length Y) ^ 2 * phi' b)).
Proof using HK Hpath HY Hi H0.
  intros Ha Hj Hji Hd. pose proof (others_diff j a Ha Hj Hji Hd) as D1. set (N := length Y) in *.
  assert (HN : INR N <> 0) by (apply not_0_INR; lia).
  apply (is_derive_ext (fun t : R => plus (scal (2 / INR N ^ 2) (others (Yt t) j a)) (- 2 * (sumn (length Ref) (fun l => k_dx q (row Y j) (row Ref l) a) / (INR N * INR (length Ref)))))).
  { intros t. rewrite dY_others. rewrite !Yt_len. fold N.
    rewrite (sumn_ext (length Ref) (fun l => k_dx q (row (Yt t) j) (row Ref l) a) (fun l => k_dx q (row Y j) (row Ref l) a)). 
    - simplR. ring.
    - intros l Hl. rewrite row_Yt by auto. destruct (Nat.eqb_spec j i); [congruence|auto]. }
  replace (sumn m _) with (plus (scal (2 / INR N ^ 2) (sumn m (fun b => k_dxdy q (row Y j) (row Y i) a b * phi' b))) 0).
  - apply @is_derive_plus; [|apply @is_derive_const]. apply @is_derive_scal; auto.
  - unfold plus, scal; simpl; unfold mult; simpl. rewrite Rplus_0_r, <- sumn_scal. apply sumn_ext. intros b Hb. field. auto.
Qed.
Lemma mdY_same beta M a : (a < m)%nat -> rows m M -> length M = length Y -> (forall j, (j < length Y)%nat -> j <> i -> dom (row Y i) (row Y j)) ->
  dom (row Y i) (row M i) ->
  is_derive (fun t : R => mmdm_dY q beta (Yt t) M i a) t0 (sumn m (fun b => mmdm_dY2 q beta Y M i i a b * phi' b)).
Proof using HK Hpath HY Hi H0.
  intros Ha HM HL Hd1 Hd2. pose proof (others_same a Ha Hd1) as D1. set (N := length Y) in *.
  assert (HN : INR N <> 0) by (apply not_0_INR; lia).
  pose proof (dx_derive (row M i) a Ha ltac:(apply HM, nth_In; lia) Hd2) as D2.
  apply (is_derive_ext (fun t : R => minus (scal (2 * beta / INR N ^ 2) (others (Yt t) i a)) (scal (2 / INR N) (k_dx q (phi t) (row M i) a)))).
  { intros t. rewrite mdY_others. rewrite !Yt_len. fold N. rewrite row_Yt, Nat.eqb_refl by auto.
    simplR. field. auto. }
  replace (sumn m _) with (minus (scal (2 * beta / INR N ^ 2) (sumn m (fun b => (sumn N (fun l => k_dx2 q (row Y i) (row Y l) a b) - k_dx2 q (row Y i) (row Y i) a b) * phi' b))) (scal (2 / INR N) (sumn m (fun b => k_dx2 q (row Y i) (row M i) a b * phi' b)))).
  - apply @is_derive_minus; apply @is_derive_scal; auto.
  - unfold minus, plus, opp, scal; simpl; unfold mult; simpl. rewrite <- !sumn_scal. rewrite <- sumn_minus'. apply sumn_ext. intros b Hb.
    unfold mmdm_dY2. rewrite Nat.eqb_refl. fold N. field. auto.
Qed.
Lemma mdY_diff beta M j a : (a < m)%nat -> (j < length Y)%nat -> j <> i -> dom (row Y j) (row Y i) ->
  is_derive (fun t : R => mmdm_dY q beta (Yt t) M j a) t0 (sumn m (fun b => 2 * beta * k_dxdy q (row Y j) (row Y i) a b / INR (length Y) ^ 2 * phi' b)).
Proof using HK Hpath HY Hi H0.
  intros Ha Hj Hji Hd. pose proof (others_diff j a Ha Hj Hji Hd) as D1. set (N := length Y) in *.
  assert (HN : INR N <> 0) by (apply not_0_INR; lia).
  apply (is_derive_ext (fun t : R => plus (scal (2 * beta / INR N ^ 2) (others (Yt t) j a)) (- 2 * (k_dx q (row Y j) (row M j) a / INR N)))).
  { intros t. rewrite mdY_others. rewrite !Yt_len. fold N. rewrite row_Yt by auto. destruct (Nat.eqb_spec j i); [congruence|].
    simplR. ring. }
  replace (sumn m _) with (plus (scal (2 * beta / INR N ^ 2) (sumn m (fun b => k_dxdy q (row Y j) (row Y i) a b * phi' b))) 0).
  - apply @is_derive_plus; [|apply @is_derive_const]. apply @is_derive_scal; auto.
  - unfold plus, scal; simpl; unfold mult; simpl. rewrite Rplus_0_r, <- sumn_scal. apply sumn_ext. intros b Hb. field. auto.
Qed.
End Path.
End Kernel.
