(** The models of GD and IGD meet the specification. *)
From Coq Require Import List Arith Bool Reals Lia Lra Permutation.
From Coquelicot Require Import Coquelicot.
From Verif Require Import Num Exn ListAux HVDSpec HVDProof NewtonModel NewtonProof HVXModel HVXSpec HVXProof HVChain HVSym HVXTop
  RefModel RefProof RefSpec RefTop IndSpec IndModel IndProof IndGD IndIGD.
Import ListNotations.
Open Scope R_scope.

Lemma mk2_nth {A} n m (f : nat -> nat -> A) i k d : (i < n)%nat -> (k < m)%nat -> nth k (nth i (mk2 n m f) []) d = f i k.
Proof.
  intros Hi Hk. unfold mk2. rewrite (nth_map_default (fun i => map (f i) (seq 0 m)) (seq 0 n) i 0%nat) by (rewrite seq_length; auto).
  rewrite (nth_indep _ d (f (nth i (seq 0 n) 0%nat) 0%nat)) by (rewrite map_length, seq_length; auto). rewrite map_nth. rewrite !seq_nth by auto. auto.
Qed.
Lemma mk3_nth {A} n m q (f : nat -> nat -> nat -> A) i k l d : (i < n)%nat -> (k < m)%nat -> (l < q)%nat ->
  nth l (nth k (nth i (mk3 n m q f) []) []) d = f i k l.
Proof.
  intros Hi Hk Hl. unfold mk3. rewrite (nth_map_default (fun i => mk2 m q (f i)) (seq 0 n) i 0%nat) by (rewrite seq_length; auto).
  rewrite seq_nth by auto. apply mk2_nth; auto.
Qed.

(** [X], objective values [Y] and Jacobians [J] as they are passed around: left out, or those of [X] *)
Definition agree (o : ind) (X : list (list R)) (Y : option (list (list R))) (J : option (nat -> nat -> nat -> R)) : Prop :=
  (Y = None \/ Y = Some (map (i_func o) X)) /\ (J = None \/ J = Some (fun i => i_jac o (nth i X []))).
Lemma agree_YJ o X Y J : agree o X Y J -> get_YJ o X Y J = (map (i_func o) X, fun i => i_jac o (nth i X [])).
Proof. intros [[->| ->] [->| ->]]; reflexivity. Qed.

(** the objective function is twice differentiable and the user's derivatives are right *)
Record smooth (o : ind) (n m : nat) : Prop := {
  sm_maps : maps n m (i_func o);
  sm_jac : forall x, length x = n -> jac_at n m (i_func o) (i_jac o x) x;
  sm_hess : forall x, length x = n -> hess_at n m (i_jac o) (i_hess o x) x }.

Section Top.
Variables (o : ind) (n m : nat).
Hypothesis Hsm : smooth o n m.
Hypothesis Href : i_ref o <> [].
Hypothesis Hrows : rows m (i_ref o).
Local Notation f := (i_func o).
Lemma cols_X X : X <> [] -> rows n X -> n_cols X = n.
Proof using. intros HX HR. destruct X; [congruence|]. apply HR. simpl; auto. Qed.
Lemma cols_Y X : X <> [] -> rows n X -> n_cols (map f X) = m.
Proof using Hsm. intros HX HR. destruct X as [|x X]; [congruence|]. apply (sm_maps o n m Hsm). apply HR. simpl; auto. Qed.

Section Values.
Variable X : list (list R).
Hypothesis HX0 : X <> [].
Hypothesis HX : rows n X.
Definition near (i : nat) : list R := nth (amin (f (nth i X [])) (i_ref o)) (i_ref o) [].
Definition dst (i : nat) : R := edist (f (nth i X [])) (near i).
Lemma near_in i : In (near i) (i_ref o).
Proof using Href. apply nth_In. apply amin_lt. auto. Qed.

Lemma gd_deriv_value Y J hes : agree o X Y J ->
  exists G H, gd_derivatives o X Y J hes = Ok (G, if hes then Some H else None) /\
   length G = length X /\ length H = length X /\
   (forall i, (i < length X)%nat -> length (nth i G []) = n) /\
   (forall i k, (i < length X)%nat -> (k < n)%nat ->
     nth k (nth i G []) NaN = fmul (fmul (Fin (i_p o / INR (length X))) (npow (dst i) (i_p o - 2))) (Fin (ip m f (i_jac o) (nth i X []) (near i) k))) /\
   (forall i k l, (i < length X)%nat -> (k < n)%nat -> (l < n)%nat ->
     nth l (nth k (nth i H []) []) NaN = fadd
       (if reqb (i_p o) 2 then Fin 0 else
          fmul (fmul (Fin (i_p o * (i_p o - 2) / INR (length X))) (if reqb (dst i) 0 then Fin 0 else npow (dst i) (i_p o - 4)))
               (Fin (ip m f (i_jac o) (nth i X []) (near i) k * ip m f (i_jac o) (nth i X []) (near i) l)))
       (Fin (i_p o / INR (length X) * curv m f (i_jac o) (i_hess o) (nth i X []) (near i) k l))).
Proof using Hsm Href Hrows HX0 HX.
  intros Hag. assert (HN : (length X =? 0)%nat = false) by (apply Nat.eqb_neq; destruct X; simpl; [congruence|lia]).
  pose proof (map_f_rows n m f (sm_maps o n m Hsm) X HX) as HY.
  assert (E : forall i a, (i < length X)%nat -> entry (map f X) i a - entry (i_ref o) (nth i (map (fun a => argminR (map (edist a) (i_ref o))) (map f X)) 0%nat) a
    = nth a (f (nth i X [])) 0 - nth a (near i) 0).
  { intros i a Hi. unfold entry, near, amin. rewrite nth_mapf by auto.
    rewrite (nth_map_default (fun a => argminR (map (edist a) (i_ref o))) (map f X) i []) by (rewrite map_length; auto). rewrite nth_mapf by auto. auto. }
  assert (En : forall i, (i < length X)%nat -> sqrt (sumn m (fun a => (nth a (f (nth i X [])) 0 - nth a (near i) 0) * (nth a (f (nth i X [])) 0 - nth a (near i) 0))) = dst i).
  { intros i Hi. unfold dst, edist. f_equal. symmetry. apply sqd_sumn. apply (sm_maps o n m Hsm), HX, nth_In; auto. apply Hrows, near_in. }
  unfold gd_derivatives. rewrite HN, (agree_YJ _ _ _ _ Hag). cbv beta iota zeta. rewrite (nearest_rows_ok (map f X) (i_ref o) m) by (auto; destruct X; simpl; congruence).
  cbn [bind fst snd]. rewrite map_length, Nat.eqb_refl. cbn [negb].
  rewrite (cols_X X), (cols_Y X) by auto. eexists _, _. split; [destruct hes; reflexivity|]. 
  split; [unfold mk2; rewrite map_length, seq_length; auto|]. split; [unfold mk3; rewrite map_length, seq_length; auto|]. split.
  { intros i Hi. unfold mk2. rewrite (nth_map_default (fun i => map _ (seq 0 n)) (seq 0 (length X)) i 0%nat) by (rewrite seq_length; auto). rewrite map_length, seq_length. auto. }
  split.
  - intros i k Hi Hk. rewrite mk2_nth by auto. f_equal.
    + f_equal. f_equal. rewrite <- En by auto. f_equal. apply sumn_ext. intros a Ha. rewrite !E by auto. auto.
    + f_equal. unfold ip. apply sumn_ext. intros a Ha. rewrite !E by auto. auto.
  - intros i k l Hi Hk Hl. rewrite mk3_nth by auto.
    assert (En' : sqrt (sumn m (fun a => (entry (map f X) i a - entry (i_ref o) (nth i (map (fun a => argminR (map (edist a) (i_ref o))) (map f X)) 0%nat) a) *
       (entry (map f X) i a - entry (i_ref o) (nth i (map (fun a => argminR (map (edist a) (i_ref o))) (map f X)) 0%nat) a))) = dst i).
    { rewrite <- En by auto. f_equal. apply sumn_ext. intros a Ha. rewrite !E by auto. auto. }
    rewrite En'.
    assert (Eg : forall k, sumn m (fun a => i_jac o (nth i X []) a k * (entry (map f X) i a - entry (i_ref o) (nth i (map (fun a => argminR (map (edist a) (i_ref o))) (map f X)) 0%nat) a))
       = ip m f (i_jac o) (nth i X []) (near i) k).
    { intros k'. unfold ip. apply sumn_ext. intros a Ha. rewrite !E by auto. auto. }
    rewrite !Eg. f_equal. f_equal. unfold curv. do 2 f_equal. apply sumn_ext. intros a Ha. rewrite !E by auto. auto.
Qed.
End Values.

(** IGD *)
Lemma sum_filter {A} (P : A -> bool) (g : A -> R) l : fold_right Rplus 0 (map g (filter P l)) = sumR (map (fun a => if P a then g a else 0) l).
Proof using. induction l as [|a l IH]; simpl; auto. destruct (P a); simpl; rewrite IH; ring. Qed.
Lemma map_seq_nth {A B} (g : A -> B) (l : list A) d : map (fun j => g (nth j l d)) (seq 0 (length l)) = map g l.
Proof using.
  assert (H : forall s, map (fun j => g (nth (j - s) l d)) (seq s (length l)) = map g l).
  { induction l as [|a l IH]; intros s; simpl; auto. rewrite Nat.sub_diag. f_equal. rewrite <- (IH (S s)). apply map_ext_in. intros j Hj. apply in_seq in Hj. 
    replace (j - s)%nat with (S (j - S s)) by lia. auto. }
  rewrite <- (H 0%nat). apply map_ext_in. intros j Hj. rewrite Nat.sub_0_r. auto.
Qed.
Lemma sum_count (l : list nat) i : INR (count_occ Nat.eq_dec l i) = sumR (map (fun j => if (j =? i)%nat then 1 else 0) l).
Proof using.
  induction l as [|a l IH]; simpl count_occ; auto. simpl map. simpl sumR. rewrite <- IH. destruct (Nat.eq_dec a i) as [->|Hne].
  - rewrite Nat.eqb_refl, S_INR. ring.
  - destruct (Nat.eqb_spec a i); [congruence|]. ring.
Qed.
Lemma igd_diff Y i a : (i < length Y)%nat ->
  let idx := map (fun r => amin r Y) (i_ref o) in
  INR (nth i (map (fun i => count_occ Nat.eq_dec idx i) (seq 0 (length Y))) 0%nat) * entry Y i a
  - fold_right Rplus 0 (map (fun j => entry (i_ref o) j a) (nth i (map (fun i => filter (fun j => (nth j idx (length Y) =? i)%nat) (seq 0 (length idx))) (seq 0 (length Y))) []))
  = sumR (map (fun r => if (amin r Y =? i)%nat then entry Y i a - nth a r 0 else 0) (i_ref o)).
Proof using.
  intros Hi idx. rewrite (nth_map_default (fun i => count_occ Nat.eq_dec idx i) (seq 0 (length Y)) i 0%nat) by (rewrite seq_length; auto).
  rewrite (nth_map_default (fun i => filter (fun j => (nth j idx (length Y) =? i)%nat) (seq 0 (length idx))) (seq 0 (length Y)) i 0%nat) by (rewrite seq_length; auto).
  rewrite !seq_nth by auto. rewrite Nat.add_0_l. rewrite sum_count, sum_filter. unfold idx at 1. rewrite map_map.
  assert (El : length idx = length (i_ref o)) by (unfold idx; apply map_length). rewrite El.
  assert (E : sumR (map (fun j => if (nth j idx (length Y) =? i)%nat then entry (i_ref o) j a else 0) (seq 0 (length (i_ref o))))
    = sumR (map (fun r => if (amin r Y =? i)%nat then nth a r 0 else 0) (i_ref o))).
  { f_equal. rewrite <- (map_seq_nth (fun r => if (amin r Y =? i)%nat then nth a r 0 else 0) (i_ref o) []).
    apply map_ext_in. intros j Hj. apply in_seq in Hj. unfold idx. rewrite (nth_indep _ _ (amin [] Y)) by (rewrite map_length; lia). rewrite (map_nth (fun r => amin r Y)). auto. }
  rewrite E. clear. induction (i_ref o) as [|r l IH]; simpl; [ring|]. destruct (amin r Y =? i)%nat; lra.
Qed.

Lemma igd_deriv_value X Y J hes : X <> [] -> rows n X -> agree o X Y J -> i_M o = length (i_ref o) ->
  exists G H, igd_derivatives o None X Y J hes = Ok (G, if hes then Some H else None) /\
   length G = length X /\ length H = length X /\
   (forall i k, (i < length X)%nat -> (k < n)%nat -> nth k (nth i G []) 0 = ig m f (i_jac o) (i_ref o) X i k) /\
   (forall i k l, (i < length X)%nat -> (k < n)%nat -> (l < n)%nat -> nth l (nth k (nth i H []) []) 0 = ih m f (i_jac o) (i_ref o) (i_hess o) X i k l).
Proof using Hsm Href Hrows.
  intros HX0 HX Hag HM. pose proof (map_f_rows n m f (sm_maps o n m Hsm) X HX) as HY.
  assert (HM0 : i_M o <> 0%nat) by (rewrite HM; destruct (i_ref o); simpl; [congruence|lia]).
  unfold igd_derivatives. destruct (i_M o) as [|M'] eqn:EM; [congruence|]. rewrite <- EM in *. clear EM M'.
  rewrite (agree_YJ _ _ _ _ Hag). cbv beta iota zeta. unfold igd_indices.
  rewrite (nearest_rows_ok (i_ref o) (map f X) m) by (auto; destruct X; simpl; congruence). cbn [bind fst snd]. cbv zeta.
  rewrite (map_length f X), Nat.eqb_refl. cbn [negb]. rewrite (cols_X X), (cols_Y X) by auto.
  eexists _, _. split; [destruct hes; reflexivity|]. split; [unfold mk2; rewrite map_length, seq_length; auto|]. split; [unfold mk3; rewrite map_length, seq_length; auto|].
  assert (Ed : forall i a, (i < length X)%nat -> INR (nth i (map (fun i => count_occ Nat.eq_dec (map (fun a => argminR (map (edist a) (map f X))) (i_ref o)) i) (seq 0 (length X))) 0%nat) * entry (map f X) i a -
      fold_right Rplus 0 (map (fun j => entry (i_ref o) j a) (nth i (map (fun i => filter (fun j => (nth j (map (fun a => argminR (map (edist a) (map f X))) (i_ref o)) (length X) =? i)%nat)
        (seq 0 (length (map (fun a => argminR (map (edist a) (map f X))) (i_ref o))))) (seq 0 (length X))) []))
      = sumR (map (fun r => if (amin r (map f X) =? i)%nat then nth a (f (nth i X [])) 0 - nth a r 0 else 0) (i_ref o))).
  { intros i a Hi. pose proof (igd_diff (map f X) i a) as H. rewrite map_length in H. specialize (H Hi). cbv zeta in H. unfold amin at 1 2 3 in H. etransitivity; [exact H|].
    apply sumR_ext. intros r Hr. unfold entry. rewrite nth_mapf by auto. auto. }
  assert (Eg : forall (w : nat -> R) i, (i < length X)%nat -> sumn m (fun a => w a * sumR (map (fun r => if (amin r (map f X) =? i)%nat then nth a (f (nth i X [])) 0 - nth a r 0 else 0) (i_ref o)))
      = sumR (map (fun r => if (amin r (map f X) =? i)%nat then sumn m (fun a => w a * (nth a (f (nth i X [])) 0 - nth a r 0)) else 0) (i_ref o))).
  { intros w i Hi. transitivity (sumn m (fun a => sumR (map (fun r => w a * (if (amin r (map f X) =? i)%nat then nth a (f (nth i X [])) 0 - nth a r 0 else 0)) (i_ref o)))).
    - apply sumn_ext. intros a Ha. rewrite sumR_scal. auto.
    - rewrite <- sumR_sumn. apply sumR_ext. intros r Hr. destruct (amin r (map f X) =? i)%nat; auto. rewrite sumn_zero; auto. intros; ring. }
  split.
  - intros i k Hi Hk. rewrite mk2_nth by auto. unfold ig. rewrite HM. f_equal. unfold ip. rewrite <- (Eg (fun a => i_jac o (nth i X []) a k) i Hi). apply sumn_ext. intros a Ha. rewrite Ed by auto. auto.
  - intros i k l Hi Hk Hl. rewrite mk3_nth by auto. unfold ih. rewrite HM. f_equal.
    transitivity (sumR (map (fun r => if (amin r (map f X) =? i)%nat then 1 else 0) (i_ref o)) * sumn m (fun a => i_jac o (nth i X []) a k * i_jac o (nth i X []) a l) +
       sumR (map (fun r => if (amin r (map f X) =? i)%nat then sumn m (fun a => i_hess o (nth i X []) a k l * (nth a (f (nth i X [])) 0 - nth a r 0)) else 0) (i_ref o))).
    + f_equal.
      * f_equal. rewrite (nth_map_default (fun i => count_occ Nat.eq_dec _ i) (seq 0 (length X)) i 0%nat) by (rewrite seq_length; auto). rewrite seq_nth, Nat.add_0_l by auto.
        rewrite sum_count, map_map. auto.
      * rewrite <- (Eg (fun a => i_hess o (nth i X []) a k l) i Hi). apply sumn_ext. intros a Ha. rewrite Ed by auto. auto.
    + unfold curv. clear. induction (i_ref o) as [|r l0 IH]; simpl; [ring|]. destruct (amin r (map f X) =? i)%nat; lra.
Qed.
End Top.

Lemma igd_value o Y m : 0 < i_p o -> Y <> [] -> i_ref o <> [] -> i_M o = length (i_ref o) -> rows m Y -> rows m (i_ref o) ->
  exists v, igd_compute o None (Some Y) = Ok (Fin v) /\ 0 <= v /\ mean_dist (i_p o) (i_ref o) Y (pw v (i_p o)).
Proof.
  intros Hp HY HR HM H1 H2. unfold igd_compute, igd_indices. simpl get_Y. cbn [bind]. rewrite (nearest_rows_ok (i_ref o) Y m) by auto. cbn [bind fst snd].
  rewrite map_length, HM, Nat.eqb_refl. rewrite pick_spec.
  rewrite root_mean_spec by (auto; destruct (i_ref o); simpl; congruence). eexists. split; [reflexivity|]. split; [apply pw_nonneg|].
  rewrite map_map, map_length. apply mean_dist_iff; auto. rewrite pw_inv; auto.
  apply Rmult_le_pos.
  - apply sumR_nonneg. intros a Ha. apply in_map_iff in Ha as (y & <- & _). apply pw_nonneg.
  - left. apply Rinv_0_lt_compat. apply lt_0_INR. destruct (i_ref o); simpl; [congruence|lia].
Qed.

(** cells *)
Lemma count_sum N (l : list nat) : (forall a, In a l -> (a < N)%nat) -> fold_right Nat.add 0%nat (map (fun i => count_occ Nat.eq_dec l i) (seq 0 N)) = length l.
Proof.
  induction l as [|a l IH]; intros Hb.
  - simpl. induction (seq 0 N); simpl; auto.
  - simpl length. rewrite <- IH by (intros; apply Hb; simpl; auto). specialize (Hb a (or_introl eq_refl)).
    assert (G : forall s M, (s <= a)%nat -> (a < s + M)%nat -> fold_right Nat.add 0%nat (map (fun i => count_occ Nat.eq_dec (a :: l) i) (seq s M)) = S (fold_right Nat.add 0%nat (map (fun i => count_occ Nat.eq_dec l i) (seq s M)))).
    { intros s M. revert s. induction M as [|M IHM]; intros s H1 H2; [lia|]. simpl seq. simpl map. simpl fold_right.
      destruct (Nat.eq_dec a s) as [->|Hne].
      - assert (E : map (fun i => if Nat.eq_dec s i then S (count_occ Nat.eq_dec l i) else count_occ Nat.eq_dec l i) (seq (S s) M) = map (fun i => count_occ Nat.eq_dec l i) (seq (S s) M)).
        { apply map_ext_in. intros j Hj. apply in_seq in Hj. destruct (Nat.eq_dec s j); [lia|auto]. }
        simpl count_occ in *. rewrite E. lia.
      - simpl count_occ in *. rewrite IHM by lia. lia. }
    apply G; lia.
Qed.
Lemma count_filter idx N i : (i < N)%nat -> length (filter (fun j => (nth j idx N =? i)%nat) (seq 0 (length idx))) = count_occ Nat.eq_dec idx i.
Proof.
  intros Hi. assert (G : forall s, length (filter (fun j => (nth (j - s) idx N =? i)%nat) (seq s (length idx))) = count_occ Nat.eq_dec idx i).
  { induction idx as [|a l IH]; intros s; simpl; auto. rewrite Nat.sub_diag.
    assert (E : filter (fun j => (match (j - s)%nat with 0%nat => a | S k => nth k l N end =? i)%nat) (seq (S s) (length l)) = filter (fun j => (nth (j - S s) l N =? i)%nat) (seq (S s) (length l))).
    { apply filter_ext_in. intros j Hj. apply in_seq in Hj. replace (j - s)%nat with (S (j - S s)) by lia. auto. }
    rewrite E. destruct (Nat.eqb_spec a i); destruct (Nat.eq_dec a i); try congruence; simpl; rewrite IH; auto. }
  rewrite <- (G 0%nat). f_equal. apply filter_ext. intros j. rewrite Nat.sub_0_r. auto.
Qed.
Lemma igd_cells o Y m : Y <> [] -> i_ref o <> [] -> rows m Y -> rows m (i_ref o) ->
  exists D idx cells cnt, igd_indices o Y = Ok (D, idx, cells, cnt) /\ length idx = length (i_ref o) /\ length cells = length Y /\ length cnt = length Y /\
    (forall j, (j < length (i_ref o))%nat -> (nth j idx 0 < length Y)%nat /\
       set_dist (nth j (i_ref o) []) Y (edist (nth j (i_ref o) []) (nth (nth j idx 0%nat) Y []))) /\
    (forall i j, (i < length Y)%nat -> In j (nth i cells []) <-> (j < length (i_ref o))%nat /\ nth j idx 0%nat = i) /\
    Permutation (concat cells) (seq 0 (length (i_ref o))) /\
    (forall i, (i < length Y)%nat -> nth i cnt 0%nat = length (nth i cells [])) /\
    fold_right Nat.add 0%nat cnt = length (i_ref o).
Proof.
  intros HY HR H1 H2. unfold igd_indices. rewrite (nearest_rows_ok (i_ref o) Y m) by auto. cbn [bind fst snd].
  set (idx := map (fun a => argminR (map (edist a) Y)) (i_ref o)). assert (Hl : length idx = length (i_ref o)) by apply map_length.
  eexists _, idx, _, _. split; [reflexivity|]. split; auto. rewrite !map_length, !seq_length. split; auto. split; auto.
  assert (Hb : forall a, In a idx -> (a < length Y)%nat). { intros a Ha. apply in_map_iff in Ha as (r & <- & _). apply amin_lt; auto. }
  split.
  { intros j Hj. assert (E : nth j idx 0%nat = amin (nth j (i_ref o) []) Y). { unfold idx. apply (nth_map_default (fun a => amin a Y) (i_ref o) j []); auto. }
    rewrite E. split; [apply amin_lt; auto|]. rewrite <- dmin_amin by auto. apply dmin_spec; auto. }
  split.
  { intros i j Hi. rewrite (nth_map_default (fun i => filter _ (seq 0 (length idx))) (seq 0 (length Y)) i 0%nat) by (rewrite seq_length; auto).
    rewrite seq_nth, Nat.add_0_l by auto. rewrite filter_In, in_seq, Nat.eqb_eq, Hl. split; intros [A B]; split; try lia.
    - rewrite (nth_indep idx 0%nat (length Y)) by lia. auto.
    - rewrite (nth_indep idx (length Y) 0%nat) by lia. auto. }
  split. { rewrite Hl. apply (label_cells idx (length Y) (length (i_ref o))); auto. }
  split.
  { intros i Hi. rewrite (nth_map_default (fun i => count_occ Nat.eq_dec idx i) (seq 0 (length Y)) i 0%nat) by (rewrite seq_length; auto).
    rewrite (nth_map_default (fun i => filter _ (seq 0 (length idx))) (seq 0 (length Y)) i 0%nat) by (rewrite seq_length; auto).
    rewrite seq_nth, Nat.add_0_l by auto. symmetry. apply count_filter; auto. }
  rewrite count_sum by auto. auto.
Qed.

(** matching *)
Lemma fold_sumR l : fold_right Rplus 0 l = sumR l.
Proof. induction l; simpl; congruence. Qed.
Lemma igdm_value o mt Y M m : Y <> [] -> rows m Y -> mt Y = Ok M -> length M = length Y -> rows m M ->
  igdm_compute o mt None (Some Y) = Ok (sumR (zip_with sqd Y M) / INR (length Y)).
Proof.
  intros HY H1 HM HL H2. unfold igdm_compute. simpl get_Y. cbn [bind]. rewrite HM. cbn [bind]. rewrite HL, Nat.eqb_refl.
  assert (E : same_cols Y M = true) by (apply (same_cols_iff _ _ m); auto). rewrite E. cbn [andb]. do 2 f_equal. rewrite fold_sumR. f_equal.
  clear. revert M. induction Y as [|y Y IH]; intros [|r M]; simpl; auto. f_equal; auto. clear.
  revert r. induction y as [|a y IH]; intros [|b r]; simpl; auto. fold (vsub y r). rewrite IH. ring.
Qed.
Lemma igdm_deriv_value o n m mt M X Y J hes : smooth o n m -> X <> [] -> rows n X -> agree o X Y J ->
  mt (map (i_func o) X) = Ok M -> length M = length X -> rows m M ->
  exists G H, igd_derivatives o (Some mt) X Y J hes = Ok (G, if hes then Some H else None) /\
   length G = length X /\ length H = length X /\
   (forall i k, (i < length X)%nat -> (k < n)%nat -> nth k (nth i G []) 0 = 2 * ip m (i_func o) (i_jac o) (nth i X []) (nth i M []) k) /\
   (forall i k l, (i < length X)%nat -> (k < n)%nat -> (l < n)%nat -> nth l (nth k (nth i H []) []) 0 = 2 * curv m (i_func o) (i_jac o) (i_hess o) (nth i X []) (nth i M []) k l).
Proof.
  intros Hsm HX0 HX Hag HMt HL HM. pose proof (map_f_rows n m (i_func o) (sm_maps o n m Hsm) X HX) as HY.
  unfold igd_derivatives. rewrite (agree_YJ _ _ _ _ Hag). cbv beta iota zeta. rewrite HMt. cbn [bind].
  rewrite map_length, HL, Nat.eqb_refl. assert (E : same_cols (map (i_func o) X) M = true) by (apply (same_cols_iff _ _ m); auto; destruct X; simpl; congruence).
  rewrite E. cbn [andb bind fst snd negb]. rewrite (cols_X n X), (cols_Y o n m Hsm X) by auto.
  eexists _, _. split; [destruct hes; reflexivity|]. split; [unfold mk2; rewrite map_length, seq_length; auto|]. split; [unfold mk3; rewrite map_length, seq_length; auto|].
  assert (Ee : forall i a, (i < length X)%nat -> entry (map (i_func o) X) i a = nth a (i_func o (nth i X [])) 0) by (intros; unfold entry; rewrite nth_mapf; auto).
  split.
  - intros i k Hi Hk. rewrite mk2_nth by auto. f_equal. unfold ip. apply sumn_ext. intros a Ha. rewrite Ee by auto. auto.
  - intros i k l Hi Hk Hl. rewrite mk3_nth by auto. f_equal. unfold curv. rewrite Rmult_1_l. f_equal. apply sumn_ext. intros a Ha. rewrite Ee by auto. auto.
Qed.
