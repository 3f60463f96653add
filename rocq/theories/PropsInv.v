(** Property theorems: fronts of the inverted and the constrained DTLZ problems. *)
From Coq Require Import List Arith Bool Reals ZArith Lia Lra.
From Verif Require Import Num Exn ListAux NewtonModel ProbModel ProbSpec ProbProof ProbTop InvProof.
Import ListNotations.
Open Scope R_scope.

(** * C67, inverted sphere problems *)
(** the vector reported for a point [s] of the unit sphere is always attained; it is optimal exactly if the sum of the entries of [s] is at least 2 *)
Theorem C67_inverted_sphere : forall n m s f, (2 <= m)%nat -> (m <= n)%nat -> length s = m -> Forall (fun a => 0 <= a) s -> sqnorm s = 1 ->
  f = idtlz2 n m \/ f = idtlz3 n m \/ f = idtlz4 n m ->
  attained (cube n) f (map (fun a => / 2 - a) s) /\ (optimal (cube n) f (map (fun a => / 2 - a) s) <-> 2 <= total s).
Proof. intros n m s f Hm Hn L P S. apply inverted_all; auto. repeat split; auto. Qed.
Print Assumptions C67_inverted_sphere.
(** hence with two or three objectives every reported vector is attained and dominated *)
Theorem C67_inverted_front_dominated : forall fuel n m F y f, (2 <= m <= 3)%nat -> (m <= n)%nat -> inverted_front (sphere_front fuel m) = Ok F -> In y F ->
  f = idtlz2 n m \/ f = idtlz3 n m \/ f = idtlz4 n m -> attained (cube n) f y /\ ~ optimal (cube n) f y.
Proof.
  intros fuel n m F y f Hm Hn E Hy Hf. unfold inverted_front in E. destruct (sphere_front fuel m) as [A|] eqn:EA; [|discriminate]. cbn [bind] in E. injection E as <-.
  apply in_map_iff in Hy. destruct Hy as (s & <- & Hs). destruct (sphere_front_points fuel m A s ltac:(lia) EA Hs) as (L & P & S).
  destruct (C67_inverted_sphere n m s f ltac:(lia) Hn L P S Hf) as [H1 H2]. split; auto. rewrite H2. pose proof (total_small m s ltac:(repeat split; auto) ltac:(lia)). lra.
Qed.
Print Assumptions C67_inverted_front_dominated.
Example C67_inverted_meets : exists s, length s = 9%nat /\ Forall (fun a => 0 <= a) s /\ sqnorm s = 1 /\ 2 <= total s.
Proof. exists (repeat (/ 3) 9). split; [reflexivity|]. split; [apply Forall_forall; intros a Ha; apply repeat_spec in Ha; lra|]. unfold sqnorm, total. simpl. lra. Qed.
Example C67_inverted_meets2 : exists F y, inverted_front (sphere_front 1000 3) = Ok F /\ In y F.
Proof.
  destruct (ref_dirs_default 1000 3 None 496 ltac:(lia) ltac:(apply Nat.leb_le; reflexivity) eq_refl) as (p & D & E & Hp & _ & H & _).
  unfold inverted_front, sphere_front. rewrite E. cbn [bind]. eexists. eexists. split; [reflexivity|]. apply in_map. unfold generic_sphere. apply (in_map (fun r => map (fun a => a / norm2 r) r)). apply H. apply (corner_lattice 3 p); auto; lia.
Qed.
(** the claim for the three problems, as a counterexample *)
Theorem C67_inverted_front_refuted : exists fuel n m F, (2 <= m)%nat /\ (m <= n)%nat /\ inverted_front (sphere_front fuel m) = Ok F /\
  ~ front_ok (cube n) (idtlz2 n m) F /\ ~ front_ok (cube n) (idtlz3 n m) F /\ ~ front_ok (cube n) (idtlz4 n m) F.
Proof.
  destruct C67_inverted_meets2 as (F & y & E & Hy). exists 1000%nat, 11%nat, 3%nat, F. split; [lia|]. split; [lia|]. split; auto.
  assert (A : forall f, f = idtlz2 11 3 \/ f = idtlz3 11 3 \/ f = idtlz4 11 3 -> ~ front_ok (cube 11) f F).
  { intros f Hf HF. exact (proj2 (C67_inverted_front_dominated 1000 11 3 F y f ltac:(lia) ltac:(lia) E Hy Hf) (proj2 (HF y Hy))). }
  split; [|split]; apply A; auto.
Qed.
Print Assumptions C67_inverted_front_refuted.

(** * C67, equality constraint *)
(** a reported vector that a feasible vector attains is optimal for the constrained problem (the converse of what is refuted below) *)
Theorem C67_constrained_partial : forall n m f F, front_ok (cube n) f F ->
  forall y, In y F -> attained (fun x => cube n x /\ eq1 m x = 0) f y -> optimal (fun x => cube n x /\ eq1 m x = 0) f y.
Proof. intros n m f F H y Hy _ x [Hx _]. apply (proj2 (H y Hy)). auto. Qed.
Print Assumptions C67_constrained_partial.
(** for every number of objectives all these problems report a vector that no feasible vector attains (the inverted sphere problems: up to four objectives) *)
Theorem C67_constrained_infeasible : forall fuel n m FS FA, (2 <= m)%nat -> (m <= n + 1)%nat -> simplex_front fuel m = Ok FS -> sphere_front fuel m = Ok FA ->
  let bad f F := exists y, In y F /\ ~ attained (fun x => cube n x /\ eq1 m x = 0) f y in
  bad (dtlz1 n m) FS /\ bad (dtlz2 n m) FA /\ bad (dtlz3 n m) FA /\ bad (dtlz4 n m) FA /\
  (forall I, inverted_front (Ok FS) = Ok I -> bad (idtlz1 n m) I) /\
  (forall I, (m <= 4)%nat -> inverted_front (Ok FA) = Ok I -> bad (idtlz2 n m) I /\ bad (idtlz3 n m) I /\ bad (idtlz4 n m) I).
Proof.
  intros fuel n m FS FA Hm Hn ES EA bad.
  assert (T : forall f F, infeasible_row n m f F -> bad f F) by (intros f F (y & Hy & H); exists y; split; auto; intros (x & [Hx He] & E); exact (H x Hx E He)).
  destruct (constrained_rows fuel n m FS FA Hm Hn ES EA) as (A1 & A2 & A3 & A4 & A5 & A6). repeat (split; [apply T; auto|]). split; [intros I EI; apply T; auto|].
  intros I H4 EI. destruct (A6 I H4 EI) as (B1 & B2 & B3). auto.
Qed.
Print Assumptions C67_constrained_infeasible.
Example C67_constrained_meets : exists FS FA, simplex_front 1000 3 = Ok FS /\ sphere_front 1000 3 = Ok FA.
Proof.
  destruct (ref_dirs_default 1000 3 None 496 ltac:(lia) ltac:(apply Nat.leb_le; reflexivity) eq_refl) as (p & D & E & _). unfold simplex_front, sphere_front. rewrite E. cbn [bind]. eauto.
Qed.
Theorem C67_constrained_refuted : exists fuel n m FS FA, (2 <= m)%nat /\ (m <= n)%nat /\ simplex_front fuel m = Ok FS /\ sphere_front fuel m = Ok FA /\
  let dom x := cube n x /\ eq1 m x = 0 in let inv F := map (map (fun a => / 2 - a)) F in
  ~ front_ok dom (dtlz1 n m) FS /\ ~ front_ok dom (dtlz2 n m) FA /\ ~ front_ok dom (dtlz3 n m) FA /\ ~ front_ok dom (dtlz4 n m) FA /\
  ~ front_ok dom (idtlz1 n m) (inv FS) /\ ~ front_ok dom (idtlz2 n m) (inv FA) /\ ~ front_ok dom (idtlz3 n m) (inv FA) /\ ~ front_ok dom (idtlz4 n m) (inv FA).
Proof.
  destruct C67_constrained_meets as (FS & FA & ES & EA). exists 1000%nat, 11%nat, 3%nat, FS, FA. split; [lia|]. split; [lia|]. split; auto. split; auto. intros dom inv.
  destruct (C67_constrained_infeasible 1000 11 3 FS FA ltac:(lia) ltac:(lia) ES EA) as (A1 & A2 & A3 & A4 & A5 & A6). specialize (A5 _ eq_refl). destruct (A6 _ ltac:(lia) eq_refl) as (B1 & B2 & B3).
  assert (T : forall f F, (exists y, In y F /\ ~ attained dom f y) -> ~ front_ok dom f F) by (intros f F (y & Hy & H) HF; apply H; apply HF; auto).
  repeat split; apply T; auto.
Qed.
Print Assumptions C67_constrained_refuted.
(** feasible vectors exist, so the constrained problems are not empty *)
Example C67_feasible : exists x, cube 3 x /\ eq1 2 x = 0.
Proof.
  set (d := sqrt (0.1601)). assert (Hd : 0 <= d <= / 2). { split; [apply sqrt_pos|]. unfold d. rewrite <- (sqrt_square (/ 2)) by lra. apply sqrt_le_1; lra. }
  exists [/ 2 + d; 0; 0]. split; [split; [reflexivity|repeat (apply Forall_cons; [lra|]); apply Forall_nil]|]. unfold eq1, sumf. cbn [Nat.sub firstn fold_right]. replace ((/ 2 + d - / 2) ^ 2) with (d * d) by ring. unfold d. rewrite sqrt_sqrt by lra. rewrite Rabs_right; lra.
Qed.
