From Coq Require Import List Arith Bool Lia Reals Lra Psatz ZArith Permutation.
From Verif Require Import ListAux Num Exn NewtonModel NewtonProof NewtonBox NewtonPop LaraModel LaraSpec LaraProof.
Import ListNotations.
Open Scope R_scope.

Section Iter.
Variables (order : list nat -> list nat) (eps : R) (jac : list R -> list (list R)) (n_obj dim : nat) (xl xu : list R).
Hypothesis Ho : forall l, Permutation (order l) l.
Hypothesis Hbox : box_ok dim xl xu.
Hypothesis Hn : (0 < n_obj)%nat.
Hypothesis Hjac : forall x, inside xl xu x -> regular n_obj dim (jac x).

Lemma survivors_spec X : let K := survivors order eps X in
  NoDup K /\ (forall i, In i K -> (i < length X)%nat) /\
  (forall i j, In i K -> In j K -> i <> j -> ~ Rabs (distance (nth i X None) (nth j X None)) <= / 10 ^ 8) /\
  (forall j, (j < length X)%nat -> ~ In j K -> exists i, In i K /\ i <> j /\ Rabs (distance (nth i X None) (nth j X None)) <= / 10 ^ 8) /\
  ((0 < length X)%nat -> K <> []).
Proof using Ho.
  apply (kept_spec (fun i j => distance (nth i X None) (nth j X None)) eps (length X)); auto. intros. apply distance_sym.
Qed.
Lemma separation_dist p q : dist2 p q = sqrt (separation p q).
Proof. unfold dist2. f_equal. revert q. induction p as [|a p IH]; intros [|b q]; cbn; auto. rewrite IH. reflexivity. Qed.
Lemma separation_self p : separation p p = 0.
Proof. induction p as [|a p IH]; cbn; auto. rewrite IH. ring. Qed.
Lemma survivors_thinned Xs : thinned Xs (survivors order eps (map Some Xs)).
Proof using Ho.
  destruct (survivors_spec (map Some Xs)) as (H1 & H2 & H3 & H4 & _). set (K := survivors order eps (map Some Xs)) in *. rewrite map_length in H2, H4.
  assert (HD : forall i j, (i < length Xs)%nat -> (j < length Xs)%nat -> Rabs (distance (nth i (map Some Xs) None) (nth j (map Some Xs) None)) = sqrt (separation (nth i Xs []) (nth j Xs []))).
  { intros i j Hi Hj. rewrite (nth_map_default Some Xs i []), (nth_map_default Some Xs j []) by auto. cbn [distance]. rewrite separation_dist. apply Rabs_right, Rle_ge, sqrt_pos. }
  split; auto. split; auto. split.
  - intros i j Hi Hj Hne. rewrite <- HD by auto. apply Rnot_le_lt. apply H3; auto.
  - intros j Hj. destruct (in_dec Nat.eq_dec j K) as [HK|HK].
    + exists j. split; auto. rewrite separation_self, sqrt_0. apply Rlt_le, Rinv_0_lt_compat, pow_lt. lra.
    + destruct (H4 j Hj HK) as (i & Hi & _ & Hle). exists i. split; auto. rewrite <- HD by auto. exact Hle.
Qed.
Lemma row_ok x : inside xl xu x -> exists st' m, box_row xl xu x (map (direction (jac x)) (seq 0 dim)) = (st', Fin m) /\ length st' = dim /\
  Rmin 1 (/ 10 ^ 10 / INR n_obj) <= m <= 1 /\
  (forall k, (k < dim)%nat -> kept_or_blocked (nth k xl 0) (nth k xu 0) (nth k x 0) (direction (jac x) k) (nth k st' 0)) /\
  forall s, 0 <= s <= m -> forall k, (k < dim)%nat -> nth k xl 0 <= nth k x 0 + nth k st' 0 * s <= nth k xu 0.
Proof using Hbox Hn Hjac.
  intros Hx. destruct Hbox as (Ll & Lu & Hle & He). pose proof Hx as (Lx & Hb). rewrite Ll in Lx, Hb.
  assert (HD : forall k, (k < dim)%nat -> nth k (map (direction (jac x)) (seq 0 dim)) 0 = direction (jac x) k).
  { intros k Hk. rewrite (nth_map_default _ _ _ 0%nat) by (rewrite seq_length; auto). rewrite seq_nth; auto. }
  destruct (box_row_safe xl xu x (map (direction (jac x)) (seq 0 dim)) (INR n_obj)) as (st' & m & E & L & Hm & Hk & Hs); rewrite ?Lx, ?map_length, ?seq_length; auto.
  - apply lt_0_INR; auto.
  - intros k Hk. rewrite HD by auto. apply (direction_bound n_obj dim). apply Hjac; auto.
  - rewrite Lx in *. exists st', m. split; auto. split; auto. split; auto. split; auto. intros k Hkd. specialize (Hk k Hkd). rewrite HD in Hk by auto. auto.
Qed.
Lemma iteration_ok Xs : Xs <> [] -> (forall x, In x Xs -> inside xl xu x) ->
  let K := survivors order eps (map Some Xs) in
  exists m X', iteration order eps jac n_obj dim xl xu (map Some Xs) = Ok (map Some X') /\ X' <> [] /\ length X' = length K /\
  Rmin 1 (/ 10 ^ 10 / INR n_obj) <= m <= 1 /\
  forall p, (p < length K)%nat -> let x := nth (nth p K 0%nat) Xs [] in let y := nth p X' [] in In x Xs /\ inside xl xu y /\
    forall c, (c < dim)%nat -> exists b, kept_or_blocked (nth c xl 0) (nth c xu 0) (nth c x 0) (direction (jac x) c) b /\ nth c y 0 = nth c x 0 + m * b.
Proof using Ho Hbox Hn Hjac.
  intros Hne Hin K. destruct (survivors_spec (map Some Xs)) as (_ & HK & _ & _ & HKn). fold K in HK, HKn. rewrite map_length in HK, HKn.
  assert (HK0 : K <> []) by (apply HKn; destruct Xs; [congruence|cbn; lia]). clear HKn.
  assert (Hx : forall i, In i K -> inside xl xu (nth i Xs []) /\ In (nth i Xs []) Xs) by (intros i Hi; assert (In (nth i Xs []) Xs) by (apply nth_In; auto); auto).
  unfold iteration. fold K.
  match goal with |- context [traverse _ ?l] => set (X1 := l) end.
  assert (E1 : X1 = map (fun i => Some (nth i Xs [])) K).
  { unfold X1. apply map_ext_in. intros i Hi. rewrite (nth_map_default Some Xs i []) by auto. reflexivity. }
  clearbody X1. subst X1. set (dir := fun i => map (direction (jac (nth i Xs []))) (seq 0 dim)).
  assert (E2 : traverse (point_step jac n_obj dim) (map (fun i => Some (nth i Xs [])) K) = Ok (map (fun i => Some (dir i)) K)).
  { rewrite (traverse_ok _ (fun p => match p with Some x => Some (map (direction (jac x)) (seq 0 dim)) | None => None end)).
    - rewrite map_map. reflexivity.
    - intros p Hp. apply in_map_iff in Hp. destruct Hp as (i & <- & Hi). cbn [point_step]. rewrite compute_step_regular; auto. apply Hjac. apply Hx; auto. }
  rewrite E2. cbn [bind]. rewrite zip_map. cbn [box_point].
  set (bx := fun i => box_row xl xu (nth i Xs []) (dir i)).
  match goal with |- context [map snd ?l] => set (BX := l) end.
  assert (E3 : BX = map (fun i => (Some (fst (bx i)), snd (bx i))) K).
  { unfold BX. apply map_ext. intros i. unfold bx. cbn [box_point]. destruct (box_row xl xu (nth i Xs []) (dir i)). reflexivity. }
  clearbody BX. subst BX. rewrite !map_map. cbn [fst snd].
  assert (HB : forall i, In i K -> exists st' m, bx i = (st', Fin m) /\ length st' = dim /\ Rmin 1 (/ 10 ^ 10 / INR n_obj) <= m <= 1 /\
    (forall k, (k < dim)%nat -> kept_or_blocked (nth k xl 0) (nth k xu 0) (nth k (nth i Xs []) 0) (direction (jac (nth i Xs [])) k) (nth k st' 0)) /\
    forall s, 0 <= s <= m -> forall k, (k < dim)%nat -> nth k xl 0 <= nth k (nth i Xs []) 0 + nth k st' 0 * s <= nth k xu 0).
  { intros i Hi. apply row_ok. apply Hx; auto. }
  destruct (pymin_fin (map (fun i => snd (bx i)) K)) as (m & Em & Hmin & Hmle).
  { destruct K; [congruence|discriminate]. }
  { intros v Hv. apply in_map_iff in Hv. destruct Hv as (i & <- & Hi). destruct (HB i Hi) as (st0 & m0 & E0 & _). exists m0. rewrite E0. reflexivity. }
  rewrite Em. cbn [bind]. rewrite zip_map.
  assert (Hm : Rmin 1 (/ 10 ^ 10 / INR n_obj) <= m <= 1).
  { apply in_map_iff in Hmin. destruct Hmin as (i & Ei & Hi). destruct (HB i Hi) as (st' & m' & Eb & _ & Hm' & _). rewrite Eb in Ei. cbn in Ei. injection Ei as <-. auto. }
  assert (Hm0 : 0 <= m).
  { assert (0 < Rmin 1 (/ 10 ^ 10 / INR n_obj)); [|lra]. apply Rmin_pos; [lra|]. apply Rmult_lt_0_compat; [apply Rinv_0_lt_compat, pow_lt; lra|apply Rinv_0_lt_compat, lt_0_INR; auto]. }
  cbn [clip_step]. replace (Rmin (Rmax 1 0) m) with m by (rewrite Rmax_left, Rmin_right; lra). cbn [move].
  set (X' := map (fun i => zip_with (fun a s => a + s * m) (nth i Xs []) (fst (bx i))) K).
  exists m, X'. split; [unfold X'; rewrite map_map; reflexivity|]. split; [unfold X'; destruct K; [congruence|discriminate]|]. split; [unfold X'; apply map_length|]. split; auto.
  intros p Hp. cbv zeta. set (i := nth p K 0%nat). assert (Hi : In i K) by (apply nth_In; auto).
  assert (Ey : nth p X' [] = zip_with (fun a s => a + s * m) (nth i Xs []) (fst (bx i))).
  { unfold X'. rewrite (nth_map_default (fun i => zip_with (fun a s => a + s * m) (nth i Xs []) (fst (bx i))) K p 0%nat) by auto. reflexivity. }
  destruct (HB i Hi) as (st' & mi & Eb & Ls & Hmi & Hkb & Hs). rewrite Eb in Ey. cbn [fst] in Ey.
  assert (Hmm : m <= mi) by (apply Hmle; apply in_map_iff; exists i; split; auto; rewrite Eb; reflexivity).
  destruct (Hx i Hi) as ((Lx & Hxb) & HiX). destruct Hbox as (Ll & Lu & _ & _). rewrite Ll in Lx.
  assert (Hnth : forall c, (c < dim)%nat -> nth c (nth p X' []) 0 = nth c (nth i Xs []) 0 + nth c st' 0 * m).
  { intros c Hc. rewrite Ey. rewrite (zip_with_nth _ _ _ _ 0 0) by lia. reflexivity. }
  split; auto. split.
  - split; [rewrite Ey, zip_with_length; lia|]. rewrite Ll. intros k Hk. rewrite Hnth by auto. apply Hs; auto; lra.
  - intros c Hc. exists (nth c st' 0). split; [apply Hkb; auto|]. rewrite Hnth by auto. ring.
Qed.
(** the loop *)
Lemma iterations_ok n : forall Xs, Xs <> [] -> (forall x, In x Xs -> inside xl xu x) ->
  exists l, iterates (iteration order eps jac n_obj dim xl xu) n (map Some Xs) = Ok (map (map Some) l) /\ length l = n /\
    forall X, In X l -> X <> [] /\ forall x, In x X -> inside xl xu x.
Proof using Ho Hbox Hn Hjac.
  induction n as [|n IH]; intros Xs Hne Hin; [exists []; split; [reflexivity|]; split; [reflexivity|intros X []]|].
  destruct (iteration_ok Xs Hne Hin) as (m & X' & E & Hne' & L & Hm & Hp).
  assert (Hin' : forall x, In x X' -> inside xl xu x).
  { intros x Hx. apply (In_nth _ _ []) in Hx. destruct Hx as (p & Hpl & <-). rewrite L in Hpl. apply (Hp p Hpl). }
  destruct (IH X' Hne' Hin') as (l & El & Ll & Hl). exists (X' :: l). cbn [iterates]. rewrite E. cbn [bind]. rewrite El. cbn [bind map]. split; auto. split; [cbn; auto|].
  intros X [<-|HX]; auto.
Qed.
End Iter.

(** ** initial points *)
Lemma clip_inside xl xu x : length xl = length x -> length xu = length x -> (forall k, (k < length x)%nat -> nth k xl 0 <= nth k xu 0) -> inside xl xu (clip_row xl xu x).
Proof.
  intros Hl Hu Hle. unfold clip_row. assert (L1 : length (zip_with Rmax x xl) = length x) by (apply zip_with_length; auto).
  split; [rewrite zip_with_length; congruence|]. rewrite Hl. intros k Hk. rewrite (zip_with_nth _ _ _ _ 0 0) by (rewrite ?L1; lia). rewrite (zip_with_nth _ _ _ _ 0 0) by lia.
  specialize (Hle k Hk). unfold Rmin, Rmax. repeat destruct Rle_dec; lra.
Qed.
Lemma sample_inside xl xu u : length xl = length u -> length xu = length u -> (forall k, (k < length u)%nat -> nth k xl 0 <= nth k xu 0) -> (forall k, (k < length u)%nat -> 0 <= nth k u 0 <= 1) ->
  inside xl xu (zip_with Rplus (zip_with Rmult u (zip_with Rminus xu xl)) xl).
Proof.
  intros Hl Hu Hle H01. assert (L1 : length (zip_with Rminus xu xl) = length u) by (rewrite zip_with_length; congruence).
  assert (L2 : length (zip_with Rmult u (zip_with Rminus xu xl)) = length u) by (apply zip_with_length; auto).
  split; [rewrite zip_with_length; congruence|]. rewrite Hl. intros k Hk.
  rewrite (zip_with_nth _ _ _ _ 0 0) by (rewrite ?L2; lia). rewrite (zip_with_nth _ _ _ _ 0 0) by (rewrite ?L1; lia). rewrite (zip_with_nth _ _ _ _ 0 0) by lia.
  specialize (Hle k Hk). specialize (H01 k Hk). nra.
Qed.

(** ** descent *)
Lemma inner_comm u v : inner u v = inner v u.
Proof. revert v. induction u as [|a u IH]; intros [|b v]; cbn; auto. rewrite IH. ring. Qed.
Lemma cauchy u v : inner u v * inner u v <= inner u u * inner v v.
Proof.
  revert v. induction u as [|a u IH]; intros [|b v]; cbn [inner]; try lra.
  - pose proof (inner_self_nonneg u). pose proof (inner_self_nonneg v). specialize (IH v).
    set (p := inner u v) in *. set (q := inner u u) in *. set (r := inner v v) in *.
    assert (K : 2 * (a * b * p) <= a * a * r + b * b * q); [|nra].
    assert (K2 : (a * b * p) * (a * b * p) <= (a * a * r) * (b * b * q)) by (replace ((a * b * p) * (a * b * p)) with ((a * a) * (b * b) * (p * p)) by ring; replace ((a * a * r) * (b * b * q)) with ((a * a) * (b * b) * (q * r)) by ring; apply Rmult_le_compat_l; [apply Rmult_le_pos; apply Rle_0_sqr|auto]).
    assert (0 <= a * a * r) by (apply Rmult_le_pos; [apply Rle_0_sqr|auto]). assert (0 <= b * b * q) by (apply Rmult_le_pos; [apply Rle_0_sqr|auto]).
    set (X := a * a * r) in *. set (Y := b * b * q) in *. set (Z := a * b * p) in *.
    destruct (Rle_dec Z 0); [nra|]. apply Rsqr_incr_0_var; [|lra]. unfold Rsqr. pose proof (Rle_0_sqr (X - Y)) as Hq. unfold Rsqr in Hq. nra.
Qed.
Lemma cauchy_len u v : Rabs (inner u v) <= len u * len v.
Proof.
  apply Rsqr_incr_0_var; [|apply Rmult_le_pos; apply len_nonneg]. rewrite <- Rsqr_abs. unfold Rsqr.
  replace (len u * len v * (len u * len v)) with ((len u * len u) * (len v * len v)) by ring. rewrite !len_sq. apply cauchy.
Qed.
(** the inner product with the direction is the sum of the inner products with the normalised gradients *)
Lemma inner_map v (f : nat -> R) d i : length v = d -> inner v (map f (seq i d)) = fold_right Rplus 0 (map (fun c => nth c v 0 * f (i + c)%nat) (seq 0 d)).
Proof.
  revert d i. induction v as [|a v IH]; intros d i L; cbn in L; subst d; [reflexivity|]. cbn [length seq map inner fold_right nth]. rewrite Nat.add_0_r. f_equal.
  rewrite (IH (length v) (S i) eq_refl). rewrite <- seq_shift, map_map. f_equal. apply map_ext. intros c. cbn [nth]. replace (S i + c)%nat with (i + S c)%nat by lia. reflexivity.
Qed.
Lemma inner_sum v w d : length v = d -> length w = d -> inner v w = fold_right Rplus 0 (map (fun c => nth c v 0 * nth c w 0) (seq 0 d)).
Proof.
  intros Lv Lw. pose proof (inner_map v (fun c => nth c w 0) d 0 Lv) as E. cbn [Nat.add] in E. rewrite <- E. clear E. f_equal. rewrite <- Lw. clear. induction w as [|a w IH]; [reflexivity|]. cbn [length seq map nth]. f_equal. rewrite <- seq_shift, map_map. cbn [nth]. exact IH.
Qed.
Lemma sum_plus {A} (f g : A -> R) l : fold_right Rplus 0 (map (fun c => f c + g c) l) = fold_right Rplus 0 (map f l) + fold_right Rplus 0 (map g l).
Proof. induction l as [|a l IH]; cbn; [lra|]. rewrite IH. ring. Qed.
Lemma sum_scal {A} (f : A -> R) k l : fold_right Rplus 0 (map (fun c => f c * k) l) = fold_right Rplus 0 (map f l) * k.
Proof. induction l as [|a l IH]; cbn; [lra|]. rewrite IH. ring. Qed.
Lemma inner_direction d J v : length v = d -> (forall w, In w J -> length w = d) ->
  inner v (map (direction J) (seq 0 d)) = - fold_right Rplus 0 (map (fun w => inner v w / len w) J).
Proof.
  intros Lv HJ. rewrite (inner_map v (direction J) d 0 Lv). cbn [Nat.add]. induction J as [|w J IH].
  - cbn. rewrite Ropp_0. induction (seq 0 d) as [|c l IHl]; cbn; auto. rewrite IHl. unfold direction. cbn. ring.
  - transitivity (fold_right Rplus 0 (map (fun c => nth c v 0 * nth c w 0 * - / len w + nth c v 0 * direction J c) (seq 0 d))).
    + f_equal. apply map_ext. intros c. unfold direction. cbn [map fold_right]. unfold Rdiv. ring.
    + rewrite sum_plus, IH by (intros; apply HJ; right; auto). rewrite sum_scal. rewrite <- (inner_sum v w d Lv (HJ w (or_introl eq_refl))). cbn [map fold_right]. unfold Rdiv. ring.
Qed.
(** every objective, scaled by the length of its gradient: the sum decreases *)
Lemma direction_scaled d J : (forall w, In w J -> length w = d) ->
  fold_right Rplus 0 (map (fun v => inner v (map (direction J) (seq 0 d)) / len v) J) = - inner (map (direction J) (seq 0 d)) (map (direction J) (seq 0 d)).
Proof.
  intros HJ. set (D := map (direction J) (seq 0 d)). assert (LD : length D = d) by (unfold D; rewrite map_length, seq_length; reflexivity).
  replace (inner D D) with (inner D (map (direction J) (seq 0 d))) by reflexivity. rewrite (inner_direction d J D LD HJ). rewrite Ropp_involutive. f_equal. apply map_ext. intros v. rewrite inner_comm. reflexivity.
Qed.
Lemma direction_two d u v : length u = d -> length v = d -> 0 < len u -> 0 < len v ->
  inner u (map (direction [u; v]) (seq 0 d)) = - (len u + inner u v / len v).
Proof.
  intros Lu Lv Hu Hv. rewrite (inner_direction d [u; v] u Lu); [|intros w [<-|[<-|[]]]; auto]. cbn [map fold_right]. rewrite <- len_sq. field. lra.
Qed.

(** ** NaN *)
Lemma norm_zero v : (forall a, In a v -> a = 0) -> norm v = 0.
Proof.
  intros H. unfold norm. replace (fold_right Rplus 0 (map (fun a => a * a) v)) with 0; [apply sqrt_0|].
  induction v as [|a v IH]; cbn; auto. rewrite <- IH by (intros; apply H; right; auto). rewrite (H a (or_introl eq_refl)). ring.
Qed.
Lemma all_points_none l : In None l -> all_points l = None.
Proof. induction l as [|[r|] l IH]; intros H; [destruct H| |reflexivity]. destruct H as [H|H]; [discriminate|]. cbn. rewrite IH; auto. Qed.
Lemma compute_step_zero n d J v : length J = n -> In v J -> (forall a, In a v -> a = 0) -> compute_step n d J = Ok None.
Proof.
  intros L Hv H0. unfold compute_step. rewrite L, Nat.ltb_irrefl, <- L, firstn_all. rewrite all_points_none; auto.
  apply in_map_iff. exists v. split; auto. unfold unit_row. rewrite norm_zero by auto. rewrite (proj2 (reqb_true 0 0) eq_refl). reflexivity.
Qed.
Lemma pymin_nan l : pymin (NaN :: l) = Ok NaN.
Proof. unfold pymin. f_equal. induction l as [|a l IH]; cbn; auto. replace (flt a NaN) with false by (destruct a; reflexivity). auto. Qed.
Lemma move_nan x s : move (clip_step NaN) x s = None.
Proof. reflexivity. Qed.
Lemma map_none {A B} (l : list A) : map (fun _ => @None B) l = repeat None (length l).
Proof. induction l; cbn; auto. f_equal; auto. Qed.
Lemma survivors_first order eps X : (forall l, order l = l) -> (0 < length X)%nat -> exists K', survivors order eps X = 0%nat :: K'.
Proof.
  intros Ho HX. assert (HP : forall l, Permutation (order l) l) by (intros l; rewrite Ho; apply Permutation_refl).
  destruct (survivors_spec order eps HP X) as (_ & H2 & _ & H4 & _).
  assert (H0 : In 0%nat (survivors order eps X)).
  { destruct (in_dec Nat.eq_dec 0%nat (survivors order eps X)) as [|Hn]; auto. exfalso. destruct (H4 0%nat HX Hn) as (i & Hi & Hne & Hle). pose proof (H2 i Hi) as HiN.
    unfold survivors, kept in Hi. rewrite Ho in Hi. apply filter_In in Hi. destruct Hi as (_ & Hi). apply negb_true_iff in Hi.
    assert (HT : memn i (drop_idx (fun i j => distance (nth i X None) (nth j X None)) eps (length X)) = true); [|congruence].
    apply memn_true. apply (drop_mono_le (fun i j => distance (nth i X None) (nth j X None)) eps (length X) 1 (length X) i HX).
    cbn. apply filter_In. split; [apply in_seq; lia|]. apply andb_true_iff. split; [|apply negb_true_iff, Nat.eqb_neq; auto].
    apply close_pair_near. unfold near. rewrite distance_sym. exact Hle. }
  unfold survivors, kept in *. rewrite Ho in *. destruct (length X) as [|N]; [lia|]. cbn [seq filter] in *.
  destruct (negb (memn 0 (drop_idx (fun i j => distance (nth i X None) (nth j X None)) eps (S N)))) eqn:E; eauto.
  exfalso. apply filter_In in H0. destruct H0 as (H0 & _). apply in_seq in H0. lia.
Qed.
Lemma first_point_nan order eps jac n_obj dim xl xu x Xs : (forall l, order l = l) -> box_ok dim xl xu -> (0 < n_obj)%nat -> inside xl xu x ->
  (forall y, In y Xs -> inside xl xu y /\ regular n_obj dim (jac y)) -> length (jac x) = n_obj -> (exists v, In v (jac x) /\ forall a, In a v -> a = 0) ->
  exists k, iteration order eps jac n_obj dim xl xu (map Some (x :: Xs)) = Ok (repeat None (S k)).
Proof.
  intros Ho Hb Hn Hx HXs HJ (v & Hv & H0). assert (HP : forall l, Permutation (order l) l) by (intros l; rewrite Ho; apply Permutation_refl).
  destruct (survivors_first order eps (map Some (x :: Xs)) Ho ltac:(cbn; lia)) as (K' & EK).
  destruct (survivors_spec order eps HP (map Some (x :: Xs))) as (Hnd & HK & _). rewrite EK in HK, Hnd.
  unfold iteration. rewrite EK. cbn [map nth traverse point_step]. rewrite (compute_step_zero n_obj dim (jac x) v HJ Hv H0). cbn [bind].
  match goal with |- context [traverse _ ?l] => set (X1 := l) end.
  assert (Ht : exists steps, traverse (point_step jac n_obj dim) X1 = Ok steps /\ length steps = length X1).
  { assert (HX1 : forall p, In p X1 -> exists y, p = Some y /\ regular n_obj dim (jac y)).
    { intros p Hp. unfold X1 in Hp. apply in_map_iff in Hp. destruct Hp as (i & <- & Hi). pose proof (HK i (or_intror Hi)) as Hl. destruct i as [|i]; [apply NoDup_cons_iff in Hnd; tauto|].
      cbn [map length] in Hl. rewrite map_length in Hl. exists (nth i Xs []). split.
      - cbn [nth]. rewrite (nth_map_default Some Xs i []) by lia. reflexivity.
      - apply HXs. apply nth_In. lia. }
    clearbody X1. induction X1 as [|p X1 IH]; [exists []; auto|]. destruct (HX1 p (or_introl eq_refl)) as (y & -> & Hr). cbn [traverse point_step]. rewrite (compute_step_regular _ _ _ Hr). cbn [bind].
    destruct IH as (st & -> & L); [intros; apply HX1; right; auto|]. cbn [bind]. eexists. split; [reflexivity|]. cbn. auto. }
  destruct Ht as (steps & -> & Ls). cbn [bind zip_with map box_point snd fst]. rewrite pymin_nan. cbn [bind].
  exists (length X1). f_equal. cbn [repeat]. change (move (clip_step NaN) (Some x) None) with (@None (list R)). f_equal. clearbody X1. clear -Ls. revert steps Ls.
  induction X1 as [|p X1 IH]; intros [|s steps] L; try discriminate; auto. cbn. f_equal. apply IH. cbn in L. lia.
Qed.
Lemma nth_repeat_none n i : nth i (repeat (@None (list R)) n) None = None.
Proof. revert i. induction n as [|n IH]; intros [|i]; cbn; auto. Qed.
Lemma nan_stays order eps jac n_obj dim xl xu n : (forall l, Permutation (order l) l) ->
  iteration order eps jac n_obj dim xl xu (repeat None (S n)) = Ok (repeat None (S n)).
Proof.
  intros HP. destruct (survivors_spec order eps HP (repeat None (S n))) as (Hnd & HK & _ & H4 & _). rewrite repeat_length in HK, H4.
  set (K := survivors order eps (repeat None (S n))) in *.
  assert (Hall : forall j, (j < S n)%nat -> In j K).
  { intros j Hj. destruct (in_dec Nat.eq_dec j K) as [|Hc]; auto. exfalso. destruct (H4 j Hj Hc) as (i & _ & _ & Hle). rewrite !nth_repeat_none in Hle. cbn [distance] in Hle. rewrite Rabs_R1 in Hle. cbn in Hle. lra. }
  assert (LK : length K = S n).
  { rewrite <- (seq_length (S n) 0). apply Permutation_length. apply NoDup_Permutation; [auto|apply seq_NoDup|]. intros i. rewrite in_seq. split; intros Hi; [specialize (HK i Hi); lia|apply Hall; lia]. }
  unfold iteration. fold K.
  match goal with |- context [traverse _ ?l] => replace l with (repeat (@None (list R)) (S n)) end.
  2:{ transitivity (map (fun _ => @None (list R)) K); [rewrite map_none, LK; reflexivity|]. apply map_ext. intros i. symmetry. apply (nth_repeat_none (S n) i). }
  assert (Ht : forall k, traverse (point_step jac n_obj dim) (repeat None k) = Ok (repeat None k)) by (induction k as [|k IH]; cbn [repeat traverse point_step bind]; auto; rewrite IH; reflexivity).
  rewrite Ht. cbn [bind]. cbn [repeat zip_with map box_point snd fst]. rewrite pymin_nan. cbn [bind]. f_equal. f_equal.
  clear. induction n as [|n IH]; cbn; auto. f_equal. auto.
Qed.
