(** The fronts of the WFG benchmark problems. *)
From Coq Require Import List Arith Bool ZArith Lia Reals Lra Psatz.
From Verif Require Import ListAux Exn ProbModel NewtonModel BenchModel BenchSpec BenchBase BenchTrig WfgSpec WfgModel WfgBase WfgShape WfgStage WfgOnto WfgFront WfgMain WfgReport.
Import ListNotations.
Open Scope R_scope.

(** C84: WFG4 to WFG9 *)
Theorem C84_wfg4_to_wfg9_front : forall number n M k l xu, (4 <= number <= 9)%nat -> wfg_valid number n M k l -> length xu = n -> Forall (fun b => 0 < b) xu ->
  front (below xu) (wfg number n M k xu) (ellipsoid M).
Proof. intros number n M k l xu Hnum HV Hl Hp. apply (wfg_concave_front number n M k l xu); auto; [lia|split; auto|lia]. Qed.
Print Assumptions C84_wfg4_to_wfg9_front.
Theorem C84_wfg4_to_wfg9_reported : forall number n M k l xu interior, (4 <= number <= 9)%nat -> wfg_valid number n M k l -> length xu = n -> Forall (fun b => 0 < b) xu ->
  Forall (fun r => length r = k /\ Forall unit_interval r) interior ->
  exists fr, wfg_front number n M k l xu interior = Some fr /\ length fr = (2 ^ k + length interior)%nat /\ forall u, In u fr -> optimal (below xu) (wfg number n M k xu) u.
Proof. intros number n M k l xu interior Hnum HV Hl Hp Hi. apply (report_optimal number n M k l xu); auto; [lia|split; auto|lia]. Qed.
Print Assumptions C84_wfg4_to_wfg9_reported.
Example C84_example_valid : wfg_valid 9 24 3 4 20 /\ length (default_xu 24) = 24%nat /\ Forall (fun b => 0 < b) (default_xu 24) /\ length [[/ 2; 0; 1; / 3]] = 1%nat.
Proof.
  split; [|split; [reflexivity|split; [|reflexivity]]].
  - repeat split; try lia. exists 2%nat. reflexivity.
  - unfold default_xu. apply Forall_map, Forall_forall. intros i Hi. apply in_seq in Hi. apply Rmult_lt_0_compat; [lra|]. apply lt_0_INR. lia.
Qed.
Example C84_example_vector : ellipsoid 3 [4 / 3; 8 / 3; 2].
Proof.
  exists [2 / 3; 2 / 3; 1 / 3]. split; [reflexivity|]. split; [repeat constructor; lra|]. split; [cbn; field|]. cbn [scaled]. repeat (apply (f_equal2 (@cons R)); [cbn; field|]). reflexivity.
Qed.

(** C85: WFG1 *)
Theorem C85_wfg1_front : forall n M k l xu, wfg_valid 1 n M k l -> length xu = n -> Forall (fun b => 0 < b) xu ->
  front (below xu) (wfg 1 n M k xu) (convex_surface (fun _ => True) wfg1_entry M).
Proof.
  intros n M k l xu HV Hl Hp. pose proof (wfg_convex_front 1 n M k l xu ltac:(lia) HV (conj Hl Hp) ltac:(lia)) as (H1 & H2). unfold entry in *. cbn [Nat.eqb] in *.
  assert (E : forall u, convex_surface (record wfg1_entry) wfg1_entry M u <-> convex_surface (fun _ => True) wfg1_entry M u).
  { intros u. split; intros (a & x & Ha & _ & H); exists a, x; split; auto; split; auto. intros b (_ & Hb). apply wfg1_entry_mono; auto. }
  split; [intros u; rewrite <- E; apply H1|]. intros x Hx. destruct (H2 x Hx) as (v & Ev & u & Hu & Hw). exists v. split; auto. exists u. split; auto. apply E; auto.
Qed.
Print Assumptions C85_wfg1_front.
Theorem C85_wfg1_reported : forall n M k l xu interior, wfg_valid 1 n M k l -> length xu = n -> Forall (fun b => 0 < b) xu ->
  Forall (fun r => length r = k /\ Forall unit_interval r) interior ->
  exists fr, wfg_front 1 n M k l xu interior = Some fr /\ length fr = (2 ^ k + length interior)%nat /\ forall u, In u fr -> optimal (below xu) (wfg 1 n M k xu) u.
Proof. intros n M k l xu interior HV Hl Hp Hi. apply (report_optimal 1 n M k l xu); auto; try lia. split; auto. Qed.
Print Assumptions C85_wfg1_reported.
Example C85_example : wfg_valid 1 7 2 5 2 /\ convex_surface (fun _ => True) wfg1_entry 2 [2; 0].
Proof.
  split; [repeat split; try lia; exists 5%nat; reflexivity|]. exists 1, []. split; [split; lra|]. split; auto. split; auto. split; auto. cbn [fan map app scaled]. unfold convex_up. replace (1 * PI / 2) with (PI / 2) by field. rewrite cos_PI2.
  assert (E : wfg1_entry 1 = 0) by (rewrite wfg1_entry_sin, sin_10PI; unfold Rdiv; ring). rewrite E. repeat (apply (f_equal2 (@cons R)); [cbn; lra|]). reflexivity.
Qed.

(** C86: WFG2 *)
Theorem C86_wfg2_front : forall n M k l xu, wfg_valid 2 n M k l -> length xu = n -> Forall (fun b => 0 < b) xu ->
  front (below xu) (wfg 2 n M k xu) (convex_surface (record wfg2_entry) wfg2_entry M).
Proof. intros n M k l xu HV Hl Hp. exact (wfg_convex_front 2 n M k l xu ltac:(lia) HV (conj Hl Hp) ltac:(lia)). Qed.
Print Assumptions C86_wfg2_front.
(** the deterministic part of the reported front contains a dominated vector *)
Theorem C86_wfg2_reported_refuted : forall n M k l xu interior, wfg_valid 2 n M k l -> length xu = n -> Forall (fun b => 0 < b) xu -> Nat.Even (k / (M - 1)) ->
  Forall (fun r => length r = k /\ Forall unit_interval r) interior ->
  exists fr u, wfg_front 2 n M k l xu interior = Some fr /\ In u fr /\ ~ optimal (below xu) (wfg 2 n M k xu) u.
Proof.
  intros n M k l xu interior HV Hl Hp He Hi. destruct (reported_dominated 2 n M k l xu ltac:(lia) HV (conj Hl Hp) interior eq_refl He Hi) as (fr & u & E & Hu & Hn). exists fr, u. split; auto. split; auto. intros (_ & Ho). auto.
Qed.
Print Assumptions C86_wfg2_reported_refuted.
Example C86_example_valid : wfg_valid 2 24 3 4 20 /\ Nat.Even (4 / (3 - 1)) /\ wfg_valid 2 24 2 4 20 /\ Nat.Even (4 / (2 - 1)).
Proof.
  split; [|split; [exists 1%nat; reflexivity|split; [|exists 2%nat; reflexivity]]]; repeat split; try lia; try (intros _; exists 10%nat; reflexivity); [exists 2%nat|exists 4%nat]; reflexivity.
Qed.
Example C86_example_record : record wfg2_entry 1 /\ ~ record wfg2_entry (1 / 2).
Proof.
  assert (E1 : cos (5 * PI * 1) * cos (5 * PI * 1) = 1). { replace (5 * PI * 1) with (PI + 2 * INR 2 * PI) by (cbn; ring). rewrite cos_period, cos_PI. ring. }
  assert (E2 : cos (5 * PI * (1 / 2)) = 0). { replace (5 * PI * (1 / 2)) with (PI / 2 + 2 * INR 1 * PI) by (cbn; field). rewrite cos_period. apply cos_PI2. }
  split.
  - intros b Hb. unfold wfg2_entry. rewrite E1. pose proof (COS_bound (5 * PI * b)). set (c := cos (5 * PI * b)) in *. assert (0 <= c * c <= 1) by nra. nra.
  - intros H. specialize (H 0 ltac:(lra)). unfold wfg2_entry in H. rewrite E2 in H. lra.
Qed.

(** C87: WFG3 *)
Theorem C87_wfg3_curve : forall n M k l xu, wfg_valid 3 n M k l -> length xu = n -> Forall (fun b => 0 < b) xu ->
  forall u, wfg3_curve M u -> optimal (below xu) (wfg 3 n M k xu) u.
Proof. intros n M k l xu HV Hl Hp u Hu. exact (wfg3_curve_optimal 3 n M k l xu ltac:(lia) HV (conj Hl Hp) u eq_refl Hu). Qed.
Print Assumptions C87_wfg3_curve.
Theorem C87_wfg3_reported : forall n M k l xu interior, wfg_valid 3 n M k l -> length xu = n -> Forall (fun b => 0 < b) xu ->
  Forall (fun r => length r = k /\ Forall unit_interval r) interior ->
  exists fr, wfg_front 3 n M k l xu interior = Some fr /\ length fr = (2 ^ k + length interior)%nat /\ forall u, In u fr -> optimal (below xu) (wfg 3 n M k xu) u.
Proof. intros n M k l xu interior HV Hl Hp Hi. apply (report_optimal 3 n M k l xu); auto; try lia. split; auto. Qed.
Print Assumptions C87_wfg3_reported.
Theorem C87_wfg3_two_objectives : forall n k l xu, wfg_valid 3 n 2 k l -> length xu = n -> Forall (fun b => 0 < b) xu ->
  front (below xu) (wfg 3 n 2 k xu) (wfg3_curve 2).
Proof. intros n k l xu HV Hl Hp. exact (wfg3_two 3 n 2 k l xu ltac:(lia) HV (conj Hl Hp) eq_refl eq_refl). Qed.
Print Assumptions C87_wfg3_two_objectives.
(** with more objectives some points are not at most as good as a vector of the curve *)
Theorem C87_wfg3_more_objectives_refuted : forall n M k l xu, wfg_valid 3 n M k l -> length xu = n -> Forall (fun b => 0 < b) xu -> (3 <= M)%nat ->
  exists x v, below xu x /\ wfg 3 n M k xu x = Some v /\ forall u, wfg3_curve M u -> ~ wdom u v.
Proof. intros n M k l xu HV Hl Hp HM. exact (wfg3_not_covered 3 n M k l xu ltac:(lia) HV (conj Hl Hp) eq_refl HM). Qed.
Print Assumptions C87_wfg3_more_objectives_refuted.
Example C87_example : wfg_valid 3 24 3 4 20 /\ wfg_valid 3 24 2 4 20 /\ wfg3_curve 3 [1 / 2; 1; 3].
Proof.
  split; [repeat split; try lia; try (intros _; exists 10%nat; reflexivity); exists 2%nat; reflexivity|]. split; [repeat split; try lia; try (intros _; exists 10%nat; reflexivity); exists 4%nat; reflexivity|].
  exists (1 / 2). split; [split; lra|]. cbn [fan repeat Nat.sub map app scaled]. repeat (apply (f_equal2 (@cons R)); [cbn; field|]). reflexivity.
Qed.

(** C88: parameters *)
Theorem C88_wfg_parameters : forall number n M k l,
  wfg_params number (Z.of_nat n) (Z.of_nat M) (Some (Z.of_nat k)) (Some (Z.of_nat l)) = Ok (Z.of_nat k, Z.of_nat l) <-> wfg_valid number n M k l.
Proof. exact params_ok. Qed.
Print Assumptions C88_wfg_parameters.
Theorem C88_wfg_defaults : forall number M, (exists r, wfg_params number 24 M None None = Ok r) <-> (2 <= M <= 12)%Z.
Proof. exact params_default. Qed.
Print Assumptions C88_wfg_defaults.
(** the reported points are feasible, and there are 2^k of them beside the random ones *)
Theorem C88_wfg_reported_feasible : forall number n M k l xu interior, (1 <= number <= 9)%nat -> wfg_valid number n M k l -> length xu = n -> Forall (fun b => 0 < b) xu ->
  Forall (fun r => length r = k /\ Forall unit_interval r) interior ->
  exists X fr, wfg_set number k l xu interior = Some X /\ wfg_front number n M k l xu interior = Some fr /\ Forall (below xu) X /\ length fr = (2 ^ k + length interior)%nat.
Proof.
  intros number n M k l xu interior Hnum HV Hl Hp Hi. destruct (report number n M k l xu Hnum HV (conj Hl Hp) interior Hi) as (X & fr & E1 & E2 & L & B & _). exists X, fr. auto.
Qed.
Print Assumptions C88_wfg_reported_feasible.
Example C88_example : wfg_params 2 24 3 None None = Ok (4, 20)%Z /\ wfg_params 2 23 3 None None = Exn ValueError /\ wfg_params 1 23 3 None None = Ok (4, 19)%Z /\ wfg_params 4 24 13 None None = Exn ValueError.
Proof. repeat split. Qed.
