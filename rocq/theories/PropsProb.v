(** Property theorems: reference directions, problem construction, DTLZ. *)
From Coq Require Import List Arith Bool Reals ZArith Lia Lra.
From Verif Require Import Num Exn ListAux NewtonModel ProbModel ProbSpec ProbProof ProbTop.
Import ListNotations.
Open Scope R_scope.

(** * C45 *)
(** [C] is the binomial coefficient of the standard library *)
Theorem C45_lattice : forall fuel m np target, (2 <= m)%nat -> (target < fuel)%nat ->
  target = match np with Some (S n) => S n | _ => if (m =? 2)%nat then 100%nat else 496%nat end ->
  exists p dirs, get_ref_dirs fuel m np None = Ok dirs /\ (1 <= p)%nat /\
    NoDup dirs /\ (forall y, In y dirs <-> lattice m p y) /\
    INR (length dirs) = C (p + (m - 1)) (m - 1) /\ (target <= length dirs)%nat /\
    (forall r, (1 <= r < p)%nat -> C (r + (m - 1)) (m - 1) < INR target).
Proof.
  intros fuel m np target Hm Hf Ht. destruct (ref_dirs_default fuel m np target Hm Hf Ht) as (p & D & E & H1 & H2 & H3 & H4 & H5 & H6).
  exists p, D. split; auto. split; auto. split; auto. split; auto. split; [rewrite H4; apply comb_C; lia|]. split; auto.
  intros r Hr. rewrite <- comb_C by lia. apply lt_INR. auto.
Qed.
Print Assumptions C45_lattice.
Theorem C45_given_partitions : forall fuel m np p, (1 <= m)%nat -> (1 <= p)%nat ->
  exists dirs, get_ref_dirs fuel m np (Some p) = Ok dirs /\ NoDup dirs /\ (forall y, In y dirs <-> lattice m p y) /\ INR (length dirs) = C (p + (m - 1)) (m - 1).
Proof.
  intros fuel m np p Hm Hp. unfold get_ref_dirs. cbn [bind]. destruct m as [|d]; [lia|]. destruct (Nat.eqb_spec p 0); [lia|].
  destruct (lattice_dirs d p Hp) as (D1 & D2 & D3). eexists. split; [reflexivity|]. split; auto. split; auto. rewrite D2. replace (S d - 1)%nat with d by lia. apply comb_C. lia.
Qed.
Print Assumptions C45_given_partitions.
Theorem C45_directions : forall m p y, (1 <= p)%nat -> lattice m p y -> length y = m /\ Forall (fun a => 0 <= a) y /\ total y = 1.
Proof. exact lattice_facts. Qed.
Print Assumptions C45_directions.
(** with one objective and no number of partitions the search does not end *)
Theorem C45_one_objective : forall fuel np, match np with Some 1%nat => False | _ => True end -> get_ref_dirs fuel 1 np None = Exn OutOfFuel.
Proof.
  intros fuel np Hnp. unfold get_ref_dirs. cbv zeta. rewrite partitions_diverges; [reflexivity|]. destruct np as [[|[|n]]|]; simpl in *; try contradiction; lia.
Qed.
Print Assumptions C45_one_objective.
Example C45_case : lattice 3 4 [/ 4; 2 / 4; / 4] /\ partitions 101 2 100 1 = Ok 99%nat /\ partitions 497 3 496 1 = Ok 30%nat.
Proof. split; [exists [1; 2; 1]%nat; repeat split; simpl; repeat f_equal; lra|]. split; vm_compute; reflexivity. Qed.

(** * C46 *)
Theorem C46_dtlz1_sum : forall n m x, total (dtlz1 n m x) = / 2 * (1 + g_rastrigin (k_of n m) (skipn (m - 1) x)).
Proof. intros. apply dtlz_total, simplex_pairs. Qed.
Print Assumptions C46_dtlz1_sum.
Theorem C46_sphere : forall n m x,
  sqnorm (dtlz2 n m x) = (1 + g_sphere (skipn (m - 1) x)) ^ 2 /\
  sqnorm (dtlz3 n m x) = (1 + g_rastrigin (k_of n m) (skipn (m - 1) x)) ^ 2 /\
  sqnorm (dtlz4 n m x) = (1 + g_sphere (skipn (m - 1) x)) ^ 2 /\
  sqnorm (dtlz5 n m x) = (1 + g_sphere (skipn (m - 1) x)) ^ 2 /\
  sqnorm (dtlz6 n m x) = (1 + g_root (skipn (m - 1) x)) ^ 2.
Proof.
  intros n m x. unfold dtlz2, dtlz3, dtlz4, dtlz5, dtlz6.
  rewrite !dtlz_sqnorm by (first [apply angle_pairs|apply degen_pairs]). repeat split; simpl; ring.
Qed.
Print Assumptions C46_sphere.
Theorem C46_distance : forall n m x, length x = n -> (1 <= m)%nat -> (m <= n + 1)%nat ->
  let xm := skipn (m - 1) x in
  0 <= g_sphere xm /\ (g_sphere xm = 0 <-> forall a, In a xm -> a = / 2) /\
  0 <= g_rastrigin (k_of n m) xm /\ (g_rastrigin (k_of n m) xm = 0 <-> forall a, In a xm -> a = / 2).
Proof.
  intros n m x Hx Hm Hn xm. split; [apply g_sphere_nonneg|]. split; [apply g_sphere_zero|]. rewrite (k_len n m x Hx Hn Hm). split; [apply g_rast_nonneg|apply g_rast_zero].
Qed.
Print Assumptions C46_distance.
(** the fronts returned by get_pareto_front: attained in the unit cube, and not dominated there *)
Theorem C46_dtlz1_front : forall fuel n m F, (2 <= m)%nat -> (m <= n + 1)%nat -> simplex_front fuel m = Ok F -> front_ok (cube n) (dtlz1 n m) F.
Proof. exact simplex_front_ok. Qed.
Print Assumptions C46_dtlz1_front.
Theorem C46_dtlz234_front : forall fuel n m F, (2 <= m)%nat -> (m <= n + 1)%nat -> sphere_front fuel m = Ok F ->
  front_ok (cube n) (dtlz2 n m) F /\ front_ok (cube n) (dtlz3 n m) F /\ front_ok (cube n) (dtlz4 n m) F.
Proof. exact sphere_front_ok. Qed.
Print Assumptions C46_dtlz234_front.
Theorem C46_fronts_returned : forall fuel m, (2 <= m)%nat -> (496 < fuel)%nat -> exists F G, simplex_front fuel m = Ok F /\ sphere_front fuel m = Ok G /\
  length F = length G /\ ((if (m =? 2)%nat then 100 else 496) <= length F)%nat.
Proof.
  intros fuel m Hm Hf. destruct (ref_dirs_default fuel m None (if (m =? 2)%nat then 100 else 496)%nat Hm ltac:(destruct (m =? 2)%nat; lia) eq_refl) as (p & D & E & _ & _ & _ & _ & H & _).
  unfold simplex_front, sphere_front. rewrite E. cbn [bind]. eexists. eexists. split; [reflexivity|]. split; [reflexivity|]. unfold generic_sphere. rewrite !map_length. auto.
Qed.
Print Assumptions C46_fronts_returned.
Example C46_case : cube 3 [/ 2; / 4; 1] /\ dtlz1 2 2 [/ 4; / 2] = [/ 2 * (/ 4); / 2 * (3 / 4)] /\ g_sphere [/ 4; 1] <> 0.
Proof.
  split; [split; auto; repeat constructor; lra|]. split.
  - assert (G : g_rastrigin (k_of 2 2) [/ 2] = 0) by (change (k_of 2 2) with (Z.of_nat (length [/ 2])); apply g_rast_zero; intros a [<-|[]]; auto).
    unfold dtlz1, dtlz_obj, position, tr_simplex. cbn [Nat.sub firstn skipn fst snd map rev app cumprod vmul]. rewrite G. cbn -[Rmult Rplus Rinv Rdiv]. f_equal; [|f_equal]; lra.
  - unfold g_sphere, sumf. simpl. lra.
Qed.

(** * C65: Pareto sets *)
Theorem C65_distance_zero_partial : forall n m u, length u = (m - 1)%nat -> (1 <= m)%nat -> (m <= n + 1)%nat ->
  let k := (n - length u)%nat in
  skipn (m - 1) (pareto_row k (/ 2) u) = repeat (/ 2) k /\ g_sphere (repeat (/ 2) k) = 0 /\ g_rastrigin (k_of n m) (repeat (/ 2) k) = 0.
Proof. intros n m u Hu Hm Hn k. split; [rewrite <- Hu; apply skipn_row|]. apply (g_opt n m u); auto. Qed.
Print Assumptions C65_distance_zero_partial.
Lemma root30 : Rpower (/ 10 ^ 30) (/ 10) = / 10 ^ 3.
Proof.
  replace (/ 10 ^ 30) with ((/ 10 ^ 3) ^ 10) by (field). rewrite <- Rpower_pow by (apply Rinv_0_lt_compat; lra). rewrite Rpower_mult.
  replace (INR 10 * / 10) with 1 by (simpl; field). apply Rpower_1. apply Rinv_0_lt_compat. lra.
Qed.
(** the cap at 1e-30 keeps the distance of DTLZ6 away from zero *)
Theorem C65_dtlz6_distance : forall xm, INR (length xm) * / 1000 <= g_root xm /\ g_root (repeat 0 (length xm)) = INR (length xm) * / 1000.
Proof.
  intros xm. assert (Hp : 0 < / 10 ^ 30) by (apply Rinv_0_lt_compat; lra). split.
  - unfold g_root, sumf. induction xm as [|a xm IH]; [simpl; lra|]. cbn [fold_right length]. rewrite S_INR.
    assert (/ 1000 <= Rpower (Rmax (Rabs a) (/ 10 ^ 30)) (/ 10)); [|lra]. replace (/ 1000) with (Rpower (/ 10 ^ 30) (/ 10)) by (rewrite root30; lra).
    apply Rle_Rpower_l; [lra|]. split; auto. apply Rmax_r.
  - induction xm as [|a xm IH]; [unfold g_root, sumf; simpl; lra|]. cbn [repeat length]. rewrite S_INR. unfold g_root, sumf in *. cbn [fold_right]. rewrite IH.
    rewrite Rabs_R0, Rmax_right by lra. rewrite root30. lra.
Qed.
Print Assumptions C65_dtlz6_distance.
Theorem C65_dtlz6_pareto_set_refuted : exists n m u, length u = (m - 1)%nat /\ Forall (fun a => 0 <= a <= 1) u /\
  let x := pareto_row (n - length u) 0 u in cube n x /\ sqnorm (dtlz6 n m x) = (1 + 9 / 1000) ^ 2.
Proof.
  exists 11%nat, 3%nat, [/ 2; / 4]. split; auto. split; [repeat constructor; lra|]. cbv zeta. split; [split; auto; repeat constructor; lra|].
  unfold dtlz6. rewrite dtlz_sqnorm by apply degen_pairs. change (skipn (3 - 1) (pareto_row (11 - length [/ 2; / 4]) 0 [/ 2; / 4])) with (repeat 0 (length (repeat 0 9))).
  rewrite (proj2 (C65_dtlz6_distance _)). rewrite repeat_length. simpl. field.
Qed.
Print Assumptions C65_dtlz6_pareto_set_refuted.
Example C65_case : pareto_row 2 (/ 2) [/ 3] = [/ 3; / 2; / 2].
Proof. reflexivity. Qed.

(** * C66: the number of objective values *)
Theorem C66_length_partial : forall n m x, length x = n -> (1 <= m)%nat -> (m <= n + 1)%nat ->
  length (dtlz1 n m x) = m /\ length (dtlz2 n m x) = m /\ length (dtlz3 n m x) = m /\ length (dtlz4 n m x) = m /\
  length (dtlz5 n m x) = m /\ length (dtlz6 n m x) = m /\ length (dtlz7 n m x) = m.
Proof.
  intros n m x Hx Hm Hn. unfold dtlz1, dtlz2, dtlz3, dtlz4, dtlz5, dtlz6, dtlz7.
  rewrite !dtlz_length by (intros; first [apply angle_len|apply simplex_len|apply degen_len]). rewrite app_length, firstn_length. simpl. lia.
Qed.
Print Assumptions C66_length_partial.
(** with the default number of variables (11) and thirteen objectives one value is missing *)
Theorem C66_length_refuted : exists n m, n = 11%nat /\ m = 13%nat /\ forall x, length x = n -> length (dtlz2 n m x) = 12%nat /\ (k_of n m < 0)%Z.
Proof.
  exists 11%nat, 13%nat. split; auto. split; auto. intros x Hx. unfold dtlz2. rewrite dtlz_length by (intros; apply angle_len). rewrite Hx. split; reflexivity.
Qed.
Print Assumptions C66_length_refuted.
Example C66_case : (1 <= 3)%nat /\ (3 <= 11 + 1)%nat /\ length (repeat (/ 2) 11) = 11%nat.
Proof. repeat split; lia. Qed.

(** * C67: inverted problems and equality constraints *)
Theorem C67_idtlz1_front_partial : forall fuel n m F, (2 <= m)%nat -> (m <= n + 1)%nat -> inverted_front (simplex_front fuel m) = Ok F -> front_ok (cube n) (idtlz1 n m) F.
Proof. exact inverted_front_ok. Qed.
Print Assumptions C67_idtlz1_front_partial.
(** the inverted sphere: points with only negative coordinates are dominated *)
Theorem C67_idtlz2_dominated : forall n m s, (2 <= m)%nat -> (m <= n)%nat -> length s = m -> sqnorm s = 1 -> Forall (fun a => / 2 < a) s ->
  ~ optimal (cube n) (idtlz2 n m) (map (fun a => / 2 - a) s).
Proof. exact inverted_dominated. Qed.
Print Assumptions C67_idtlz2_dominated.
Lemma comb_1 n : comb n 1 = n.
Proof. induction n as [|n IH]; auto. rewrite comb_S, comb_n0, IH. auto. Qed.
Theorem C67_idtlz2_front_refuted : exists fuel n m F, (2 <= m)%nat /\ (m <= n)%nat /\ inverted_front (sphere_front fuel m) = Ok F /\ ~ front_ok (cube n) (idtlz2 n m) F.
Proof.
  destruct (ref_dirs_default 101 2 None 100 ltac:(lia) ltac:(lia) eq_refl) as (p & D & E & H1 & _ & H3 & H4 & H5 & H6).
  assert (Hp : p = 99%nat).
  { rewrite H4 in H5. simpl (2 - 1)%nat in *. rewrite comb_1 in H5. destruct (Nat.lt_ge_cases 99 p) as [Hlt|]; [|lia]. specialize (H6 99%nat ltac:(lia)). rewrite comb_1 in H6. lia. }
  subst p. exists 101%nat, 2%nat, 2%nat. eexists. split; [lia|]. split; [lia|]. unfold inverted_front, sphere_front. rewrite E. cbn [bind]. split; [reflexivity|]. intros HF.
  set (r := [INR 49 / INR 99; INR 50 / INR 99]). assert (Hr : In r D) by (apply H3; exists [49; 50]%nat; repeat split).
  set (s := map (fun a => a / norm2 r) r).
  assert (Hy : In (map (fun a => / 2 - a) s) (map (map (fun a => / 2 - a)) (generic_sphere D))) by (apply in_map; unfold generic_sphere; apply (in_map (fun r => map (fun a => a / norm2 r) r)); auto).
  destruct (HF _ Hy) as [_ Hopt]. revert Hopt. apply C67_idtlz2_dominated; auto.
  - apply sphere_row. exists (INR 49 / INR 99). split; [simpl; auto|]. replace (INR 49) with 49 by (simpl; lra). replace (INR 99) with 99 by (simpl; lra). lra.
  - assert (Hn : norm2 r < 98 / 99). { unfold norm2, r. cbn [fold_right]. replace (INR 49) with 49 by (simpl; lra). replace (INR 50) with 50 by (simpl; lra). replace (INR 99) with 99 by (simpl; lra).
      rewrite <- (sqrt_square (98 / 99)) by lra. apply sqrt_lt_1; lra. }
    assert (Hn0 : 0 < norm2 r). { unfold norm2, r. cbn [fold_right]. apply sqrt_lt_R0. replace (INR 49) with 49 by (simpl; lra). replace (INR 50) with 50 by (simpl; lra). replace (INR 99) with 99 by (simpl; lra). lra. }
    unfold s, r. cbn [map]. fold r. replace (INR 49) with 49 by (simpl; lra). replace (INR 50) with 50 by (simpl; lra). replace (INR 99) with 99 by (simpl; lra).
    repeat constructor; apply (Rmult_lt_reg_r (norm2 r)); auto; unfold Rdiv; rewrite (Rmult_assoc _ (/ norm2 r)), Rinv_l, Rmult_1_r by lra; lra.
Qed.
Print Assumptions C67_idtlz2_front_refuted.
(** the equality constraint: two spheres around the intended one *)
Theorem C67_eq_constraint : forall m x, let d := sumf (fun a => (a - / 2) ^ 2) (firstn (m - 1) x) in
  eq1 m x = 0 <-> d = (0.4) ^ 2 + / 10 ^ 4 \/ d = (0.4) ^ 2 - / 10 ^ 4.
Proof.
  intros m x d. unfold eq1. fold d. unfold Rabs. destruct (Rcase_abs (d - 0.4 ^ 2)); lra.
Qed.
Print Assumptions C67_eq_constraint.
(** the front reported for the constrained problem Eq1DTLZ1 contains points no feasible vector attains *)
Theorem C67_eq1dtlz1_front_refuted : exists fuel n m F y, simplex_front fuel m = Ok F /\ In y F /\ forall x, cube n x -> dtlz1 n m x = y -> eq1 m x <> 0.
Proof.
  destruct (C45_lattice 101 2 None 100 ltac:(lia) ltac:(lia) eq_refl) as (p & D & E & H1 & _ & H3 & _).
  exists 101%nat, 2%nat, 2%nat. eexists. exists [/ 2 * (INR 0 / INR p); / 2 * (INR p / INR p)]. unfold simplex_front. rewrite E. cbn [bind]. split; [reflexivity|]. split.
  - change [/ 2 * (INR 0 / INR p); / 2 * (INR p / INR p)] with (map (fun a => / 2 * a) [INR 0 / INR p; INR p / INR p]). apply in_map. apply H3. exists [0; p]%nat. repeat split; simpl; lia.
  - intros x [Hx _] Ef. rewrite C67_eq_constraint. destruct x as [|a [|b [|]]]; try discriminate. cbn [firstn Nat.sub sumf fold_right].
    unfold dtlz1, dtlz_obj, position, tr_simplex in Ef. cbn [Nat.sub firstn skipn fst snd map rev app cumprod vmul] in Ef. injection Ef as E0 E1.
    change (k_of 2 2) with (Z.of_nat (length [b])) in E0. pose proof (g_rast_nonneg [b]) as Hg. simpl INR in E0. unfold Rdiv in E0. rewrite Rmult_0_l, Rmult_0_r in E0.
    assert (Ha : a = 0). { set (g := g_rastrigin (Z.of_nat (length [b])) [b]) in *. assert (Hz : (1 + g) * a = 0) by lra. apply Rmult_integral in Hz. destruct Hz; lra. }
    subst a. lra.
Qed.
Print Assumptions C67_eq1dtlz1_front_refuted.
Example C67_case : Forall (fun a => / 2 < a) [0.6; 0.8] /\ sqnorm [0.6; 0.8] = 1.
Proof. split; [repeat constructor; lra|]. unfold sqnorm. simpl. lra. Qed.

(** * C47 *)
Lemma vsub_same a b : length a = length b -> vsub a b = Ok (map (fun p => fst p - snd p) (combine a b)).
Proof. intros H. unfold vsub. rewrite (proj2 (Nat.eqb_eq _ _) H). auto. Qed.
Lemma sub_nonpos a b : length a = length b -> (forall t, In t (map (fun p => fst p - snd p) (combine a b)) -> t <= 0) <-> leqv a b.
Proof.
  revert b. induction a as [|x a IH]; intros [|y b] H; simpl in *; try lia; [split; [constructor|intros _ t []]|].
  injection H as H. split.
  - intros Ht. constructor; [specialize (Ht (x - y) ltac:(auto)); lra|]. apply IH; auto.
  - intros Hl t [<-|Ht]; inversion Hl; subst; [lra|]. apply (proj2 (IH b H)); auto.
Qed.
Theorem C47_boundary : forall n xl xu n_eq n_ieq eqf ieqf c x, length xl = n -> length xu = n -> length x = n ->
  new_cmop n xl xu n_eq n_ieq true eqf ieqf = Ok c ->
  c_nieq c = (n_ieq + 2 * Z.of_nat n)%Z /\ c_neq c = n_eq /\
  forall old, (if (0 <? n_ieq)%Z then ieqf x = Ok old else old = []) ->
  exists v, ieq_constraint c x = Ok (old ++ v) /\ length v = (2 * n)%nat /\ ((forall t, In t v -> t <= 0) <-> in_box xl xu x) /\
    (Z.of_nat (length old) = n_ieq -> Z.of_nat (length (old ++ v)) = c_nieq c).
Proof.
  intros n xl xu n_eq n_ieq eqf ieqf c x H1 H2 H3 E. unfold new_cmop in E. destruct ((n_eq <? 0)%Z || (n_ieq <? 0)%Z) eqn:En; [discriminate|]. injection E as <-. cbn [c_nieq c_neq]. split; auto. split; auto.
  intros old Ho. exists (map (fun p => fst p - snd p) (combine xl x) ++ map (fun p => fst p - snd p) (combine x xu)).
  split.
  - unfold ieq_constraint, call, add_boundary_constraints. cbn [c_ieq]. destruct (0 <? n_ieq)%Z; [rewrite Ho|subst old]; cbn [bind]; rewrite !vsub_same by congruence; cbn [bind]; auto.
  - split; [rewrite app_length, !map_length, !combine_length; lia|]. split.
    + unfold in_box. rewrite <- !sub_nonpos by congruence. split.
      * intros H. split; intros t Ht; apply H, in_or_app; auto.
      * intros [Ha Hb] t Ht. apply in_app_or in Ht. destruct Ht; auto.
    + intros Hl. rewrite !app_length, !map_length, !combine_length. change (Z.of_nat (length old + (Nat.min (length xl) (length x) + Nat.min (length x) (length xu))) = (n_ieq + 2 * Z.of_nat n)%Z). lia.
Qed.
Print Assumptions C47_boundary.
Theorem C47_created : forall n xl xu n_eq n_ieq b eqf ieqf, (exists c, new_cmop n xl xu n_eq n_ieq b eqf ieqf = Ok c) <-> (0 <= n_eq)%Z /\ (0 <= n_ieq)%Z.
Proof.
  intros. unfold new_cmop. destruct ((n_eq <? 0)%Z || (n_ieq <? 0)%Z) eqn:En.
  - split; [intros [c E]; discriminate|]. intros [H1 H2]. apply orb_true_iff in En. destruct En as [En|En]; apply Z.ltb_lt in En; lia.
  - split; [|intros _; destruct b; eexists; reflexivity]. intros _. apply orb_false_iff in En. destruct En as [E1 E2]. apply Z.ltb_ge in E1. apply Z.ltb_ge in E2. auto.
Qed.
Print Assumptions C47_created.
Example C47_case : exists c, new_cmop 2 [0; 0] [1; 2] 0 1 true (fun _ => Ok []) (fun x => Ok [nth 0 x 0]) = Ok c /\ ieq_constraint c [3; 1] = Ok [3; 0 - 3; 0 - 1; 3 - 1; 1 - 2].
Proof. eexists. split; reflexivity. Qed.

(** * C48 *)
Definition good_dim (v : pyval) (n : nat) : Prop := (1 <= n)%nat /\ v = PyInt (Z.of_nat n).
(** the values a bound stands for *)
Definition bound_values (n : nat) (a : arr) (l : list fl) : Prop :=
  match a with
  | AScalar x => l = repeat x n
  | AVec v => (length v = n /\ l = v) \/ (length v = 1%nat /\ exists x, v = [x] /\ l = repeat x n)
  | _ => False
  end.
Lemma dim_iff v n : validate_dimension v = Ok n <-> good_dim v n.
Proof.
  unfold validate_dimension, good_dim. destruct v as [b|z|]; try (split; [discriminate|intros [_ H]; discriminate]).
  destruct (Z.ltb_spec z 1); split.
  - discriminate.
  - intros [H1 H2]. injection H2 as ->. lia.
  - intros E. injection E as <-. split; [lia|]. f_equal. lia.
  - intros [H1 H2]. injection H2 as ->. f_equal. lia.
Qed.
Lemma bound_iff n a l : broadcast_bound n a = Ok l <-> bound_values n a l.
Proof.
  destruct a as [x|v| | |]; simpl; try (split; [discriminate|contradiction]).
  - split; [intros E; injection E; auto|intros ->; auto].
  - destruct (Nat.eqb_spec (length v) n) as [He|Hne].
    + split; [intros E; injection E as ->; auto|]. intros [[_ ->]|(H & x & -> & ->)]; auto. simpl in He. subst n. auto.
    + destruct v as [|x [|y v]].
      * split; [discriminate|]. intros [[H _]|(H & _)]; simpl in *; congruence.
      * split; [intros E; injection E as <-; right; eauto|]. intros [[H _]|(_ & x' & E & ->)]; [congruence|]. congruence.
      * split; [discriminate|]. intros [[H _]|(H & _)]; simpl in *; congruence.
Qed.
Lemma bound_len n a l : bound_values n a l -> length l = n.
Proof. destruct a; simpl; try contradiction; [intros ->; apply repeat_length|]. intros [[H ->]|(_ & x & _ & ->)]; auto. apply repeat_length. Qed.
(** success exactly for positive integers and bounds of the right shape with no lower bound above its
    upper bound; the stored bounds are those values *)
Theorem C48_succeeds_partial : forall nv no xl xu P,
  new_mop nv no xl xu = Ok P <->
  good_dim nv (p_nvar P) /\ good_dim no (p_nobj P) /\ bound_values (p_nvar P) xl (p_xl P) /\ bound_values (p_nvar P) xu (p_xu P) /\
  forall i, (i < p_nvar P)%nat -> fgt (nth i (p_xl P) NaN) (nth i (p_xu P) NaN) = false.
Proof.
  intros nv no xl xu P. unfold new_mop. split.
  - destruct (validate_dimension nv) as [n|] eqn:E1; [|discriminate]. destruct (validate_dimension no) as [m|] eqn:E2; [|discriminate]. cbn [bind].
    destruct (broadcast_bound n xl) as [l|] eqn:E3; [|discriminate]. cbn [bind]. destruct (broadcast_bound n xu) as [u|] eqn:E4; [|discriminate]. cbn [bind].
    destruct (validate_bound l u) eqn:E5; [discriminate|]. intros E. injection E as <-. cbn [p_nvar p_nobj p_xl p_xu].
    split; [apply dim_iff; auto|]. split; [apply dim_iff; auto|]. split; [apply bound_iff; auto|]. split; [apply bound_iff; auto|].
    intros i Hi. apply bound_iff in E3. apply bound_iff in E4. apply bound_len in E3. apply bound_len in E4.
    destruct (fgt (nth i l NaN) (nth i u NaN)) eqn:Eg; auto. exfalso. assert (validate_bound l u = true); [|congruence].
    unfold validate_bound. apply existsb_exists. exists (nth i l NaN, nth i u NaN). split; auto. rewrite <- combine_nth by congruence. apply nth_In. rewrite combine_length. lia.
  - intros (H1 & H2 & H3 & H4 & H5). apply dim_iff in H1. apply dim_iff in H2. pose proof (bound_len _ _ _ H3) as L3. pose proof (bound_len _ _ _ H4) as L4. apply bound_iff in H3. apply bound_iff in H4. rewrite H1, H2. cbn [bind]. rewrite H3, H4. cbn [bind].
    destruct (validate_bound (p_xl P) (p_xu P)) eqn:E; [|destruct P; auto]. unfold validate_bound in E. apply existsb_exists in E. destruct E as ([a b] & Hin & Hg). apply (In_nth _ _ (NaN, NaN)) in Hin. destruct Hin as (i & Hi & En).
    rewrite combine_length in Hi. rewrite combine_nth in En by congruence. injection En as <- <-. cbn [fst snd] in Hg. rewrite H5 in Hg by lia. discriminate.
Qed.
Print Assumptions C48_succeeds_partial.
Theorem C48_stored : forall nv no xl xu P, new_mop nv no xl xu = Ok P -> length (p_xl P) = p_nvar P /\ length (p_xu P) = p_nvar P /\
  forall i a b, nth_error (p_xl P) i = Some (Fin a) -> nth_error (p_xu P) i = Some (Fin b) -> a <= b.
Proof.
  intros nv no xl xu P E. apply C48_succeeds_partial in E. destruct E as (_ & _ & H3 & H4 & H5). pose proof (bound_len _ _ _ H3). pose proof (bound_len _ _ _ H4). split; auto. split; auto.
  intros i a b Ha Hb. assert (Hi : (i < length (p_xl P))%nat) by (apply nth_error_Some; congruence). specialize (H5 i ltac:(lia)). rewrite (nth_error_nth _ _ _ Ha), (nth_error_nth _ _ _ Hb) in H5. simpl in H5. unfold rleb in H5. destruct (Rle_dec a b); auto. discriminate.
Qed.
Print Assumptions C48_stored.
(** the exceptions: TypeError only if a bound cannot be an array of floats, ValueError otherwise *)
Theorem C48_errors : forall nv no xl xu e, new_mop nv no xl xu = Exn e -> e = ValueError \/ (e = TypeError /\ (xl = ANoType \/ xu = ANoType)).
Proof.
  intros nv no xl xu e. unfold new_mop.
  assert (D : forall v e, validate_dimension v = Exn e -> e = ValueError) by (intros [b|z|] e'; simpl; try (destruct (z <? 1)%Z); congruence).
  assert (B : forall n a e, broadcast_bound n a = Exn e -> e = ValueError \/ (e = TypeError /\ a = ANoType)).
  { intros n [x|l| | |] e'; simpl; try congruence; try (intros H; injection H; auto). destruct (length l =? n)%nat; [discriminate|]. destruct l as [|x [|]]; intros H; try discriminate; injection H; auto. }
  destruct (validate_dimension nv) eqn:E1; [|intros E; injection E as <-; left; eapply D; eauto]. destruct (validate_dimension no) eqn:E2; [|intros E; injection E as <-; left; eapply D; eauto]. cbn [bind].
  destruct (broadcast_bound a xl) eqn:E3; [|intros E; injection E as <-; destruct (B _ _ _ E3) as [|[-> ->]]; auto]. cbn [bind]. destruct (broadcast_bound a xu) eqn:E4; [|intros E; injection E as <-; destruct (B _ _ _ E4) as [|[-> ->]]; auto]. cbn [bind].
  destruct (validate_bound a1 a2); intros E; [injection E as <-; auto|discriminate].
Qed.
Print Assumptions C48_errors.
(** a NaN bound is accepted, although it is not below the other one *)
Theorem C48_nan_refuted : exists nv no xl xu P i, new_mop nv no xl xu = Ok P /\ (i < p_nvar P)%nat /\ fle (nth i (p_xl P) NaN) (nth i (p_xu P) NaN) = false.
Proof. exists (PyInt 2), (PyInt 2), (AScalar NaN), (AVec [Fin 1; Fin 2]). eexists. exists 0%nat. split; [reflexivity|]. split; [simpl; lia|reflexivity]. Qed.
Print Assumptions C48_nan_refuted.
Example C48_case : exists P, new_mop (PyInt 2) (PyInt 3) (AScalar NInf) (AVec [Fin 1]) = Ok P /\ p_xu P = [Fin 1; Fin 1] /\ new_mop (PyBool true) (PyInt 3) (AScalar (Fin 0)) (AScalar (Fin 1)) = Exn ValueError.
Proof. eexists. split; [reflexivity|]. split; reflexivity. Qed.
