(** Proofs about the parametrised fronts of the examples. *)
From Coq Require Import List Arith Bool Reals ZArith Lia Lra.
From Coquelicot Require Import Coquelicot.
From Verif Require Import Exn ExModel ExSpec.
Import ListNotations.
Open Scope R_scope.

Lemma reqb_true a b : reqb a b = true <-> a = b.
Proof. unfold reqb. destruct (Req_EM_T a b); split; intros; auto; congruence. Qed.
Lemma reqb_false a b : reqb a b = false <-> a <> b.
Proof. unfold reqb. destruct (Req_EM_T a b); split; intros; auto; congruence. Qed.
Lemma rleb_true a b : rleb a b = true <-> a <= b.
Proof. unfold rleb. destruct (Rle_dec a b); split; intros; auto; congruence. Qed.
Lemma rleb_false a b : rleb a b = false <-> b < a.
Proof. unfold rleb. destruct (Rle_dec a b); split; intros; auto; try congruence; lra. Qed.

Lemma floor_spec x k : IZR k <= x < IZR k + 1 -> floor x = k.
Proof. intros [A B]. unfold floor. destruct (base_Int_part x) as [C D].
  assert (IZR (Int_part x) < IZR k + 1) by lra. assert (IZR k < IZR (Int_part x) + 1) by lra.
  rewrite <- plus_IZR in H, H0. apply lt_IZR in H, H0. lia. Qed.
Lemma floor_bounds x : IZR (floor x) <= x < IZR (floor x) + 1.
Proof. unfold floor. destruct (base_Int_part x). lra. Qed.

Lemma nth_error_intervals N k : (k <= N)%nat -> nth_error (intervals N) k = Some (INR k / INR N).
Proof. intros H. unfold intervals. apply (map_nth_error (fun i => INR i / INR N)). rewrite (List.nth_error_nth' _ 0%nat) by (rewrite seq_length; lia). rewrite seq_nth by lia. auto. Qed.
Lemma intervals_length N : length (intervals N) = S N.
Proof. unfold intervals. rewrite map_length, seq_length. auto. Qed.
Lemma py_nth_pos {A} (l : list A) k : py_nth l (Z.of_nat k) = match nth_error l k with Some a => Ok a | None => Exn IndexError end.
Proof. unfold py_nth. replace (Z.of_nat k <? 0)%Z with false by (symmetry; apply Z.ltb_ge; lia).
  replace (Z.of_nat k <? 0)%Z with false by (symmetry; apply Z.ltb_ge; lia). rewrite Nat2Z.id. auto. Qed.
Lemma py_nth_neg {A} (l : list A) k : (0 < k <= length l)%nat -> py_nth l (- Z.of_nat k) = match nth_error l (length l - k) with Some a => Ok a | None => Exn IndexError end.
Proof. intros H. unfold py_nth. replace (- Z.of_nat k <? 0)%Z with true by (symmetry; apply Z.ltb_lt; lia).
  replace (- Z.of_nat k + Z.of_nat (length l) <? 0)%Z with false by (symmetry; apply Z.ltb_ge; lia).
  replace (Z.to_nat (- Z.of_nat k + Z.of_nat (length l))) with (length l - k)%nat by lia. auto. Qed.

Lemma INR_pos (ps : nat) : ps <> 0%nat -> 0 < INR ps.
Proof. intros. apply lt_0_INR. lia. Qed.
Lemma div_size N t : N <> 0%nat -> t / (1 / INR N) = INR N * t.
Proof. intros. assert (P := INR_pos N H). field. lra. Qed.

(** the index as a natural number *)
Lemma get_index_in N t : N <> 0%nat -> 0 <= t <= 1 ->
  exists k, (k < N)%nat /\ get_index N t = Z.of_nat k /\ INR k <= INR N * t <= INR k + 1 /\ (t < 1 -> INR N * t < INR k + 1) /\
    k = Nat.min (N - 1) (Z.to_nat (Int_part (INR N * t))).
Proof.
  intros HN Ht. assert (P := INR_pos N HN). unfold get_index. rewrite div_size by auto.
  destruct (reqb t 1) eqn:E.
  - apply reqb_true in E. subst t. exists (N - 1)%nat. split. lia. split. lia.
    rewrite minus_INR by lia. simpl (INR 1). split. lra. split. lra.
    replace (Int_part (INR N * 1)) with (Z.of_nat N). lia. symmetry. apply floor_spec. rewrite <- INR_IZR_INZ. lra.
  - apply reqb_false in E. destruct (floor_bounds (INR N * t)) as [A B].
    assert (0 <= INR N * t < INR N) by (split; [nra|]; assert (t < 1) by lra; nra).
    assert (K0 : (0 <= floor (INR N * t))%Z).
    { assert (IZR (-1) < IZR (floor (INR N * t))) by lra. apply lt_IZR in H0. lia. }
    assert (K1 : (floor (INR N * t) < Z.of_nat N)%Z). { apply lt_IZR. rewrite <- INR_IZR_INZ. lra. }
    exists (Z.to_nat (floor (INR N * t))). split. lia. split. lia.
    rewrite INR_IZR_INZ, Z2Nat.id by auto. split. lra. split. lra. unfold floor in *. lia.
Qed.

Lemma call_in ps sel t : ps <> [] -> 0 <= t <= 1 ->
  exists k p, (k < length ps)%nat /\ nth_error ps k = Some p /\ INR k <= INR (length ps) * t <= INR k + 1 /\ (t < 1 -> INR (length ps) * t < INR k + 1) /\
  k = Nat.min (length ps - 1) (Z.to_nat (Int_part (INR (length ps) * t))) /\
  call get_index ps sel t = Ok (sel p (INR (length ps) * t - INR k)).
Proof.
  intros HN Ht. assert (HN' : length ps <> 0%nat) by (destruct ps; simpl; congruence). assert (P := INR_pos _ HN').
  destruct (get_index_in (length ps) t HN' Ht) as (k & Hk & E & B & C & F).
  destruct (nth_error ps k) as [p|] eqn:En; [|apply nth_error_None in En; lia].
  exists k, p. repeat (split; auto). unfold call. destruct ps as [|q qs] eqn:Eps; [congruence|]. rewrite <- Eps in *. rewrite E, !py_nth_pos, En. cbn [bind].
  rewrite nth_error_intervals by lia. cbn [bind]. f_equal. f_equal. field. lra.
Qed.
Lemma call_above ps sel t : ps <> [] -> 1 < t -> call get_index ps sel t = Exn IndexError.
Proof.
  intros HN Ht. assert (HN' : length ps <> 0%nat) by (destruct ps; simpl; congruence). assert (P := INR_pos _ HN').
  unfold call. destruct ps as [|q qs] eqn:Eps; [congruence|]. rewrite <- Eps in *. unfold get_index.
  replace (reqb t 1) with false by (symmetry; apply reqb_false; lra). rewrite div_size by auto.
  assert (B := floor_bounds (INR (length ps) * t)). assert (INR (length ps) < INR (length ps) * t) by nra.
  assert (K : (Z.of_nat (length ps) <= floor (INR (length ps) * t))%Z).
  { assert (IZR (Z.of_nat (length ps)) < IZR (floor (INR (length ps) * t)) + 1) by (rewrite <- INR_IZR_INZ; lra). rewrite <- plus_IZR in H0. apply lt_IZR in H0. lia. }
  rewrite <- (Z2Nat.id (floor _)) by lia. rewrite py_nth_pos.
  assert (En : nth_error ps (Z.to_nat (floor (INR (length ps) * t))) = None) by (apply nth_error_None; lia). rewrite En. auto.
Qed.
(** just below 0 the last piece answers, far outside of its parameters *)
Lemma call_below ps sel t p : last (map Some ps) None = Some p -> - / INR (length ps) <= t < 0 ->
  call get_index ps sel t = Ok (sel p (INR (length ps) * (t - 1))).
Proof.
  intros HL Ht. assert (HN : ps <> []) by (intros ->; discriminate). assert (HN' : length ps <> 0%nat) by (destruct ps; simpl; congruence). assert (P := INR_pos _ HN').
  unfold call. destruct ps as [|q qs] eqn:Eps; [congruence|]. rewrite <- Eps in *. unfold get_index.
  replace (reqb t 1) with false by (symmetry; apply reqb_false; lra). rewrite div_size by auto.
  assert (B : -1 <= INR (length ps) * t < 0).
  { split. assert (INR (length ps) * (- / INR (length ps)) <= INR (length ps) * t) by (apply Rmult_le_compat_l; lra).
    replace (INR (length ps) * - / INR (length ps)) with (-1) in H by (field; lra). auto. nra. }
  rewrite (floor_spec _ (-1)) by lra. change (-1)%Z with (- Z.of_nat 1)%Z. rewrite py_nth_neg by lia.
  assert (E1 : nth_error ps (length ps - 1) = Some p).
  { clear - HL. revert HL. induction ps as [|a l IH]; simpl; [discriminate|]. destruct l as [|b l]. auto. intros H. simpl in *. rewrite Nat.sub_0_r in IH. destruct l; auto. }
  rewrite E1. cbn [bind]. rewrite py_nth_neg by (rewrite intervals_length; lia). rewrite intervals_length.
  replace (S (length ps) - 1)%nat with (length ps) by lia. rewrite nth_error_intervals by lia. cbn [bind].
  f_equal. f_equal. field. lra.
Qed.

(** on an open piece the joined curve is one piece *)
Lemma joined_piece fs k t : (k < length fs)%nat -> INR k < INR (length fs) * t < INR k + 1 ->
  joined fs t = match nth_error fs k with Some f => f (INR (length fs) * t - INR k) | None => [] end.
Proof.
  intros Hk Ht. unfold joined. replace (Nat.min _ _) with k; auto.
  replace (Int_part (INR (length fs) * t)) with (Z.of_nat k) by (symmetry; apply floor_spec; rewrite <- INR_IZR_INZ; lra). lia.
Qed.
Lemma joined_derive fs k t f D : nth_error fs k = Some f -> INR k < INR (length fs) * t < INR k + 1 ->
  curve_derive f (INR (length fs) * t - INR k) D -> curve_derive (joined fs) t (scale (INR (length fs)) D).
Proof.
  intros En Ht [LD HD]. assert (Hk : (k < length fs)%nat) by (apply nth_error_Some; congruence).
  assert (P : 0 < INR (length fs)) by (apply lt_0_INR; lia).
  split. unfold scale. rewrite map_length. auto. intros i Hi.
  assert (E : nth i (scale (INR (length fs)) D) 0 = INR (length fs) * nth i D 0).
  { unfold scale. rewrite <- (map_nth (Rmult (INR (length fs)))). f_equal. ring. }
  rewrite E.
  apply (is_derive_ext_loc (fun u => nth i (f (INR (length fs) * u - INR k)) 0)).
  - assert (L : locally t (fun u => INR k < INR (length fs) * u < INR k + 1)).
    { apply (locally_interval _ t (INR k / INR (length fs)) ((INR k + 1) / INR (length fs))).
      - simpl. apply (Rmult_lt_reg_l (INR (length fs))); auto. replace (INR (length fs) * (INR k / INR (length fs))) with (INR k) by (field; lra). lra.
      - simpl. apply (Rmult_lt_reg_l (INR (length fs))); auto. replace (INR (length fs) * ((INR k + 1) / INR (length fs))) with (INR k + 1) by (field; lra). lra.
      - simpl. intros y A B. apply (Rmult_lt_compat_l (INR (length fs))) in A, B; auto.
        replace (INR (length fs) * (INR k / INR (length fs))) with (INR k) in A by (field; lra).
        replace (INR (length fs) * ((INR k + 1) / INR (length fs))) with (INR k + 1) in B by (field; lra). lra. }
    revert L. apply filter_imp. intros u Hu. rewrite (joined_piece fs k u Hk Hu), En. auto.
  - apply (is_derive_comp (fun v => nth i (f v) 0) (fun u => INR (length fs) * u - INR k)). apply HD; auto. auto_derive; auto. ring.
Qed.
Lemma scale_nth c v i : nth i (scale c v) 0 = c * nth i v 0.
Proof. unfold scale. rewrite <- (map_nth (Rmult c)). f_equal. ring. Qed.
(** the locality used below: a piece contains a neighbourhood of its inner points *)
Lemma inside_locally N k t : 0 < INR N -> INR k < INR N * t < INR k + 1 -> locally t (fun u => INR k < INR N * u < INR k + 1).
Proof.
  intros P Ht. apply (locally_interval _ t (INR k / INR N) ((INR k + 1) / INR N)).
  - simpl. apply (Rmult_lt_reg_l (INR N)); auto. replace (INR N * (INR k / INR N)) with (INR k) by (field; lra). lra.
  - simpl. apply (Rmult_lt_reg_l (INR N)); auto. replace (INR N * ((INR k + 1) / INR N)) with (INR k + 1) by (field; lra). lra.
  - simpl. intros y A B. apply (Rmult_lt_compat_l (INR N)) in A, B; auto.
    replace (INR N * (INR k / INR N)) with (INR k) in A by (field; lra).
    replace (INR N * ((INR k + 1) / INR N)) with (INR k + 1) in B by (field; lra). lra.
Qed.
Lemma joined_derive2 fs k t f df H : nth_error fs k = Some f -> INR k < INR (length fs) * t < INR k + 1 ->
  (forall u, 0 < u < 1 -> curve_derive f u (df u)) -> curve_derive df (INR (length fs) * t - INR k) H ->
  forall i, (i < 2)%nat -> is_derive_n (fun u => nth i (joined fs u) 0) 2 t (INR (length fs) ^ 2 * nth i H 0).
Proof.
  intros En Ht Hf Hd i Hi. assert (Hk : (k < length fs)%nat) by (apply nth_error_Some; congruence).
  assert (P : 0 < INR (length fs)) by (apply lt_0_INR; lia). simpl.
  apply (is_derive_ext_loc (fun u => INR (length fs) * nth i (df (INR (length fs) * u - INR k)) 0)).
  - generalize (inside_locally (length fs) k t P Ht). apply filter_imp. intros u Hu. symmetry.
    apply is_derive_unique. rewrite <- scale_nth. apply (joined_derive fs k u f); auto. apply Hf. lra.
  - replace (INR (length fs) * (INR (length fs) * 1) * nth i H 0) with (INR (length fs) * (INR (length fs) * nth i H 0)) by ring.
    apply (is_derive_scal (fun u => nth i (df (INR (length fs) * u - INR k)) 0)).
    apply (is_derive_comp (fun v => nth i (df v) 0) (fun u => INR (length fs) * u - INR k)). apply Hd; auto. auto_derive; auto. ring.
Qed.
(** the curve of the model is the joined curve *)
Lemma objective_joined ps t : ps <> [] -> 0 <= t <= 1 -> pw_objective get_index ps t = Ok (joined (map p_obj ps) t).
Proof.
  intros HN Ht. destruct (call_in ps p_obj t HN Ht) as (k & p & Hk & En & _ & _ & Ek & E). unfold pw_objective. rewrite E. f_equal.
  unfold joined. rewrite map_length, <- Ek. rewrite (map_nth_error _ _ _ En). auto.
Qed.
Lemma call_inside ps sel k p t : nth_error ps k = Some p -> INR k <= INR (length ps) * t < INR k + 1 ->
  call get_index ps sel t = Ok (sel p (INR (length ps) * t - INR k)).
Proof.
  intros En Ht. assert (Hk : (k < length ps)%nat) by (apply nth_error_Some; congruence). assert (P : 0 < INR (length ps)) by (apply lt_0_INR; lia).
  assert (HN : ps <> []) by (intros ->; simpl in Hk; lia).
  assert (K : INR k + 1 <= INR (length ps)) by (rewrite <- S_INR; apply le_INR; lia). assert (K0 := pos_INR k).
  destruct (call_in ps sel t HN) as (k' & p' & Hk' & En' & _ & _ & Ek & E).
  { split. apply (Rmult_le_reg_l (INR (length ps))); auto. lra. apply (Rmult_le_reg_l (INR (length ps))); auto. lra. }
  assert (k' = k). { rewrite Ek. replace (Int_part (INR (length ps) * t)) with (Z.of_nat k) by (symmetry; apply floor_spec; rewrite <- INR_IZR_INZ; lra). lia. }
  clear Ek. subst k'. rewrite E. congruence.
Qed.

Lemma dot_scale_l c a b : dot (map (Rmult c) a) b = c * dot a b.
Proof. unfold dot. revert b. induction a as [|x a IH]; intros [|y b]; simpl; try ring. rewrite IH. ring. Qed.
Lemma dot_scale_r c a b : dot a (map (Rmult c) b) = c * dot a b.
Proof. unfold dot. revert b. induction a as [|x a IH]; intros [|y b]; simpl; try ring. rewrite IH. ring. Qed.
Lemma solves_scaled c M d v : c <> 0 -> solves M d v -> solves (map (map (Rmult (c * c))) M) (map (Rmult (/ c)) d) (map (Rmult c) v).
Proof. intros Hc H. unfold solves in *. subst v. rewrite !map_map. apply map_ext. intros r. rewrite dot_scale_l, dot_scale_r. field. auto. Qed.

(** * get_index of subset_selection *)
Lemma isclose_true a b : isclose a b = true <-> Rabs (a - b) <= / 100000000 + / 100000 * Rabs b.
Proof. apply rleb_true. Qed.
Lemma knot N k : N <> 0%nat -> IZR k * (1 / INR N) = IZR k / INR N.
Proof. intros. field. apply not_0_INR. auto. Qed.
Lemma get_index2_in N t : N <> 0%nat -> 0 <= t <= 1 -> ~ 0 < t <= / 100000000 ->
  exists k, (k < N)%nat /\ get_index2 N t = Z.of_nat k /\ INR k / INR N <= t <= (INR k + 1) / INR N + / 100000000 + / 100000 * t.
Proof.
  intros HN Ht Hs. assert (P := INR_pos N HN). unfold get_index2. rewrite div_size, knot by auto.
  assert (B := floor_bounds (INR N * t)). set (k := floor (INR N * t)) in *.
  assert (KT : IZR k / INR N <= t < (IZR k + 1) / INR N).
  { split. apply (Rmult_le_reg_l (INR N)); auto. replace (INR N * (IZR k / INR N)) with (IZR k) by (field; lra). lra.
    apply (Rmult_lt_reg_l (INR N)); auto. replace (INR N * ((IZR k + 1) / INR N)) with (IZR k + 1) by (field; lra). lra. }
  assert (K0 : (0 <= k)%Z). { assert (IZR (-1) < IZR k) by nra. apply lt_IZR in H. lia. }
  assert (K1 : (k <= Z.of_nat N)%Z). { apply le_IZR. rewrite <- INR_IZR_INZ. nra. }
  assert (Kp : 0 <= IZR k / INR N) by (apply Rle_mult_inv_pos; auto; apply (IZR_le 0); auto).
  destruct (isclose t (IZR k / INR N) && negb (reqb t 0)) eqn:E.
  - apply andb_prop in E. destruct E as [E E0]. apply isclose_true in E. apply negb_true_iff, reqb_false in E0.
    assert (k <> 0%Z). { intros Ek. rewrite Ek in E, Kp. unfold Rdiv in E. rewrite Rmult_0_l, Rminus_0_r, Rabs_R0 in E. rewrite Rabs_right in E by lra. apply Hs. lra. }
    exists (Z.to_nat (k - 1)). split. lia. split. lia. rewrite INR_IZR_INZ, Z2Nat.id by lia. rewrite minus_IZR.
    replace (IZR k - 1 + 1) with (IZR k) by ring. rewrite !Rabs_right in E by lra.
    split; [|nra]. apply Rle_trans with (IZR k / INR N); [|lra]. apply Rmult_le_compat_r. apply Rlt_le, Rinv_0_lt_compat; auto. lra.
  - assert (KN : k <> Z.of_nat N).
    { intros Ek. assert (t = 1). { rewrite Ek, <- INR_IZR_INZ in B. assert (INR N * 1 <= INR N * t) by lra. apply Rmult_le_reg_l in H; auto. lra. }
      subst t. rewrite Ek, <- INR_IZR_INZ in E. replace (INR N / INR N) with 1 in E by (field; lra).
      assert (isclose 1 1 = true). { apply isclose_true. rewrite Rminus_diag_eq, Rabs_R0, Rabs_R1 by auto. lra. }
      rewrite H in E. replace (reqb 1 0) with false in E by (symmetry; apply reqb_false; lra). discriminate. }
    exists (Z.to_nat k). split. lia. split. lia. rewrite INR_IZR_INZ, Z2Nat.id by lia. lra.
Qed.
Lemma get_index2_small N t : N <> 0%nat -> 0 < t <= / 100000000 -> t < / INR N -> get_index2 N t = (-1)%Z.
Proof.
  intros HN Ht H1. assert (P := INR_pos N HN). unfold get_index2. rewrite div_size, knot by auto.
  rewrite (floor_spec _ 0). unfold Rdiv. rewrite Rmult_0_l.
  replace (isclose t 0) with true. replace (reqb t 0) with false. auto. symmetry. apply reqb_false. lra.
  symmetry. apply isclose_true. rewrite Rminus_0_r, Rabs_R0, Rabs_right by lra. lra.
  simpl. split. nra. apply (Rmult_lt_compat_l (INR N)) in H1; auto. rewrite Rinv_r in H1 by lra. lra.
Qed.
(** away from the knots both agree *)
Lemma get_index2_same N t : N <> 0%nat -> 0 <= t <= 1 -> (forall k, (k <= N)%nat -> Rabs (t - INR k / INR N) > / 100000000 + / 100000) ->
  get_index2 N t = get_index N t.
Proof.
  intros HN Ht H. assert (P := INR_pos N HN). unfold get_index2. rewrite div_size, knot by auto. unfold get_index.
  assert (T1 : t <> 1). { intros ->. generalize (H N (Nat.le_refl N)). replace (1 - INR N / INR N) with 0 by (field; lra). rewrite Rabs_R0. lra. }
  replace (reqb t 1) with false by (symmetry; apply reqb_false; auto). rewrite div_size by auto.
  assert (B := floor_bounds (INR N * t)). set (k := floor (INR N * t)) in *.
  assert (K0 : (0 <= k)%Z). { assert (IZR (-1) < IZR k) by nra. apply lt_IZR in H0. lia. }
  assert (K1 : (k <= Z.of_nat N)%Z). { apply le_IZR. rewrite <- INR_IZR_INZ. nra. }
  replace (isclose t (IZR k / INR N)) with false; auto. symmetry. apply not_true_iff_false. rewrite isclose_true.
  generalize (H (Z.to_nat k) ltac:(lia)). rewrite INR_IZR_INZ, Z2Nat.id by auto.
  assert (0 <= IZR k / INR N <= 1).
  { split. apply Rle_mult_inv_pos; auto. apply (IZR_le 0); auto. apply (Rmult_le_reg_l (INR N)); auto. replace (INR N * (IZR k / INR N)) with (IZR k) by (field; lra). nra. }
  rewrite (Rabs_right (IZR k / INR N)) by lra. lra.
Qed.

(** * cubic splines *)
Lemma last_le_spec x bs : forall i acc, match last_le x bs i acc with
  | None => acc = None /\ forall j b, nth_error bs j = Some b -> x < b
  | Some m => (acc = Some m /\ (forall j b, nth_error bs j = Some b -> x < b)) \/
      (exists b, (i <= m)%nat /\ nth_error bs (m - i) = Some b /\ b <= x /\ forall j b', (m - i < j)%nat -> nth_error bs j = Some b' -> x < b')
  end.
Proof.
  induction bs as [|b bs IH]; intros i acc; cbn [last_le].
  - destruct acc. left. split; auto. intros [|j] b H; discriminate. split; auto. intros [|j] b H; discriminate.
  - specialize (IH (S i) (if rleb b x then Some i else acc)).
    destruct (last_le x bs (S i) (if rleb b x then Some i else acc)) as [m|].
    + destruct IH as [[E H]|(b' & Hm & E & Hb & H)].
      * destruct (rleb b x) eqn:Eb.
        -- injection E as <-. right. exists b. split; auto. rewrite Nat.sub_diag. split; auto. split. apply rleb_true; auto.
           intros [|j] b' Hj Hn. lia. apply (H j b'); auto.
        -- left. split; auto. intros [|j] b' Hn. injection Hn as <-. apply rleb_false; auto. apply (H j); auto.
      * right. exists b'. split. lia. replace (m - i)%nat with (S (m - S i)) by lia. split; auto. split; auto.
        intros [|j] b'' Hj Hn. lia. apply (H j); auto. lia.
    + destruct IH as [E H]. destruct (rleb b x) eqn:Eb; [discriminate|]. split; auto.
      intros [|j] b' Hn. injection Hn as <-. apply rleb_false; auto. apply (H j); auto.
Qed.
(** breaks in increasing order *)
Definition increasing (bs : list R) : Prop := forall i j a b, (i < j)%nat -> nth_error bs i = Some a -> nth_error bs j = Some b -> a < b.
Lemma last_le_at x bs i b : increasing bs -> nth_error bs i = Some b -> b <= x ->
  (forall b', nth_error bs (S i) = Some b' -> x < b') -> last_le x bs 0 None = Some i.
Proof.
  intros HI En Hb Hn. generalize (last_le_spec x bs 0 None). destruct (last_le x bs 0 None) as [m|].
  - intros [[E _]|(c & _ & E & Hc & H)]. discriminate. rewrite Nat.sub_0_r in *. f_equal.
    destruct (lt_eq_lt_dec m i) as [[L|L]|L]; auto.
    + specialize (H i b L En). lra.
    + exfalso. destruct (nth_error bs (S i)) as [b'|] eqn:Es.
      * specialize (Hn b' eq_refl). destruct (Nat.eq_dec m (S i)) as [->|Hm]. rewrite E in Es. injection Es as <-. lra.
        assert (b' < c) by (apply (HI (S i) m b' c); auto; lia). lra.
      * apply nth_error_None in Es. assert (m < length bs)%nat by (apply nth_error_Some; congruence). lia.
  - intros [_ H]. specialize (H i b En). lra.
Qed.
Lemma last_le_none x bs : (forall b, In b bs -> x < b) -> last_le x bs 0 None = None.
Proof. intros H. generalize (last_le_spec x bs 0 None). destruct (last_le x bs 0 None) as [m|]; auto.
  intros [[E _]|(b & _ & E & Hb & _)]. discriminate. apply nth_error_In in E. specialize (H b E). lra. Qed.
Lemma cubic_poly a b c d u : fst (fst (cubic [a; b; c; d] u)) = poly [a; b; c; d] u.
Proof. unfold cubic, poly. simpl. ring. Qed.
Lemma cubic_derive a b c d u : is_derive (poly [a; b; c; d]) u (snd (fst (cubic [a; b; c; d] u))).
Proof. unfold poly, cubic. simpl. auto_derive; auto. ring. Qed.
Lemma cubic_derive2 a b c d u : is_derive (fun v => snd (fst (cubic [a; b; c; d] v))) u (snd (cubic [a; b; c; d] u)).
Proof. unfold cubic. simpl. auto_derive; auto. ring. Qed.
Lemma derive_minus_c (y : R -> R) (x z a : R) : is_derive y x a -> is_derive (fun u => y u - z) x a.
Proof. intros H. replace a with (a - 0) by ring. apply (is_derive_minus y (fun _ => z) x a 0). auto. apply (is_derive_const z x). Qed.
