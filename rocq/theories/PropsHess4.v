(** Property theorems: the matrix asserted in /repo/examples/HV_Hessian/4D_example_Hessian.py. *)
From Coq Require Import List Arith Lia Bool ZArith Reals Lra.
From Coquelicot Require Import Coquelicot.
From Verif Require Import Num Exn ListAux NDSModel NDSSpec NDSTop HVModel HVSpec HVTheory HVTop HVHom HVExtra
  HVDModel HVDSpec HVDTheory HVDProof HVDTop HVHTheory HVHProof HVDHom HVDEval HVDFacts HVDUnst PropsHVD.
Import ListNotations.
Open Scope R_scope.

(** lines 10-12: the points ([func] is the identity) and the reference point *)
Definition points_4d : list (list Z) := [[16; 23; 1; 8]; [14; 32; 2; 5]; [12; 27; 3; 1]; [10; 21; 4; 9]; [8; 33; 5; 3]]%Z.
Definition ref_4d : list Z := [17; 35; 7; 10]%Z.
(** lines 17-40 *)
Definition asserted_4d : list (list Z) :=
  [[0; 9; 24; 37; 0; (-2); (-6); 0; 0; (-5); (-10); 0; 0; 0; (-4); (-12); 0; 0; 0; 0];
   [9; 0; 2; 6; 0; 0; 0; 0; 0; 0; 0; 0; 0; 0; (-1); (-3); 0; 0; 0; 0];
   [24; 2; 0; 12; 0; 0; 0; 0; 0; 0; 0; 0; 0; 0; 0; 0; 0; 0; 0; 0];
   [37; 6; 12; 0; 0; (-1); (-3); 0; 0; (-4); (-5); 0; 0; 0; 0; 0; 0; 0; 0; 0];
   [0; 0; 0; 0; 0; 5; 15; 3; 0; 0; (-15); 0; 0; 0; 0; 0; 0; 0; 0; 0];
   [(-2); 0; 0; (-1); 5; 0; 13; 3; 0; 0; (-13); 0; 0; 0; 0; 0; 0; 0; 0; 0];
   [(-6); 0; 0; (-3); 15; 13; 0; 9; 0; 0; 0; 0; 0; 0; 0; 0; 0; 0; 0; 0];
   [0; 0; 0; 0; 3; 3; 9; 0; 0; 0; (-9); 0; 0; 0; 0; 0; 0; 0; 0; 0];
   [0; 0; 0; 0; 0; 0; 0; 0; 0; 33; 72; 32; 0; 0; (-8); (-20); 0; (-12); (-12); (-4)];
   [(-5); 0; 0; (-4); 0; 0; 0; 0; 33; 0; 43; 20; 0; 0; (-4); (-12); 0; 0; 0; 0];
   [(-10); 0; 0; (-5); (-15); (-13); 0; (-9); 72; 43; 0; 40; 0; 0; 0; 0; 0; 0; 0; 0];
   [0; 0; 0; 0; 0; 0; 0; 0; 32; 20; 40; 0; 0; 0; 0; 0; 0; 0; 0; 0];
   [0; 0; 0; 0; 0; 0; 0; 0; 0; 0; 0; 0; 0; 3; 14; 38; 0; (-2); (-2); 0];
   [0; 0; 0; 0; 0; 0; 0; 0; 0; 0; 0; 0; 3; 0; 7; 21; 0; 0; 0; 0];
   [(-4); (-1); 0; 0; 0; 0; 0; 0; (-8); (-4); 0; 0; 14; 7; 0; 54; 0; 0; 0; 0];
   [(-12); (-3); 0; 0; 0; 0; 0; 0; (-20); (-12); 0; 0; 38; 21; 54; 0; 0; (-4); (-4); 0];
   [0; 0; 0; 0; 0; 0; 0; 0; 0; 0; 0; 0; 0; 0; 0; 0; 0; 14; 14; 4];
   [0; 0; 0; 0; 0; 0; 0; 0; (-12); 0; 0; 0; (-2); 0; 0; (-4); 14; 0; 26; 8];
   [0; 0; 0; 0; 0; 0; 0; 0; (-12); 0; 0; 0; (-2); 0; 0; (-4); 14; 26; 0; 8];
   [0; 0; 0; 0; 0; 0; 0; 0; (-4); 0; 0; 0; 0; 0; 0; 0; 4; 8; 8; 0]]%Z.

(** * C186 *)
(** whatever the sort does with ties, the model gives these numbers … *)
Theorem C186_asserted : forall minf argsort, argsort_ok argsort -> minf <= -100 ->
  exists H, compute_HVdY2 minf argsort 4 (ofZ points_4d) (map IZR ref_4d) = Ok H /\
    forall i k j l, (i < 5)%nat -> (k < 4)%nat -> (j < 5)%nat -> (l < 4)%nat ->
      nth l (nth j (nth k (nth i H []) []) []) 0 = IZR (nth (4 * i + k) (nth (4 * j + l) asserted_4d []) 0%Z).
Proof.
  intros minf argsort Ha Hm.
  assert (Hr : rows_ok (ofZ points_4d) (map IZR ref_4d)) by (apply rows_ok_zdec; reflexivity).
  assert (HG : general_position (ofZ points_4d) (map IZR ref_4d)) by (apply gp_dec; reflexivity).
  assert (Hin : inside (ofZ points_4d) (map IZR ref_4d)) by (apply inside_dec; reflexivity).
  assert (HA : above_all (IZR (-100)) (ofZ points_4d) (map IZR ref_4d)) by (apply above_all_dec; reflexivity).
  assert (HA' : above_all minf (ofZ points_4d) (map IZR ref_4d)) by (intros i k Hi Hk; specialize (HA i k Hi Hk); lra).
  assert (HN : ofZ points_4d <> []) by discriminate.
  destruct (C09_hessian_partial minf argsort (ofZ points_4d) (map IZR ref_4d) Ha HN Hr ltac:(left; simpl; lia) HG Hin HA') as (H & E & _ & _ & P).
  destruct (C09_hessian_partial (IZR (-100)) stable_argsort (ofZ points_4d) (map IZR ref_4d) stable_argsort_ok HN Hr ltac:(left; simpl; lia) HG Hin HA) as (H0 & E0 & _ & _ & P0).
  exists H. split; [exact E|]. intros i k j l Hi Hk Hj Hl.
  destruct (P i k j l Hi Hk Hj Hl) as [Q _]. destruct (P0 i k j l Hi Hk Hj Hl) as [Q0 _].
  rewrite (C09_hessian_unique (ofZ points_4d) (map IZR ref_4d) i k j l _ _ Hr ltac:(simpl; lia) HG Hin Hi Hk Hj Hl Q Q0).
  assert (R : exists g, compute_HVdY2 (-100)%Z stable_argsort 4 points_4d ref_4d = Ok g /\
    forallb (fun i => forallb (fun k => forallb (fun j => forallb (fun l => Z.eqb (nth l (nth j (nth k (nth i g []) []) []) 0%Z) (nth (4 * i + k) (nth (4 * j + l) asserted_4d []) 0%Z))
      (seq 0 4)) (seq 0 5)) (seq 0 4)) (seq 0 5) = true) by (eexists; split; vm_compute; reflexivity).
  destruct R as (g & Eg & T). pose proof (compute_HVdY2_run _ _ _ _ _ Eg) as ER. change (length (map IZR ref_4d)) with 4%nat in E0. rewrite ER in E0. injection E0 as <-.
  rewrite forallb_forall in T. specialize (T i ltac:(apply in_seq; lia)). rewrite forallb_forall in T. specialize (T k ltac:(apply in_seq; lia)).
  rewrite forallb_forall in T. specialize (T j ltac:(apply in_seq; lia)). rewrite forallb_forall in T. specialize (T l ltac:(apply in_seq; lia)). apply Z.eqb_eq in T. rewrite <- T.
  pose proof (map_nth (map ofZ) g [] i) as M1. cbn [map] in M1. rewrite M1. pose proof (map_nth ofZ (nth i g []) [] k) as M2. change (ofZ []) with (@nil (list R)) in M2. rewrite M2.
  pose proof (map_nth (map IZR) (nth k (nth i g []) []) [] j) as M3. cbn [map] in M3. change (map (map IZR)) with ofZ in M3. rewrite M3. exact (map_nth IZR (nth j (nth k (nth i g []) []) []) 0%Z l).
Qed.
Print Assumptions C186_asserted.
(** … and they are the second derivatives of the hypervolume *)
Theorem C186_true : forall i k j l, (i < 5)%nat -> (k < 4)%nat -> (j < 5)%nat -> (l < 4)%nat ->
  is_hess (ofZ points_4d) (map IZR ref_4d) i k j l (IZR (nth (4 * i + k) (nth (4 * j + l) asserted_4d []) 0%Z)).
Proof.
  intros i k j l Hi Hk Hj Hl.
  assert (Hr : rows_ok (ofZ points_4d) (map IZR ref_4d)) by (apply rows_ok_zdec; reflexivity).
  assert (HG : general_position (ofZ points_4d) (map IZR ref_4d)) by (apply gp_dec; reflexivity).
  assert (Hin : inside (ofZ points_4d) (map IZR ref_4d)) by (apply inside_dec; reflexivity).
  assert (HA : above_all (-100) (ofZ points_4d) (map IZR ref_4d)) by (apply (above_all_dec (-100)); reflexivity).
  destruct (C186_asserted (-100) stable_argsort stable_argsort_ok ltac:(lra)) as (H & E & V).
  destruct (C09_hessian_partial (-100) stable_argsort (ofZ points_4d) (map IZR ref_4d) stable_argsort_ok ltac:(discriminate) Hr ltac:(left; simpl; lia) HG Hin HA) as (H0 & E0 & _ & _ & P0).
  change (length (map IZR ref_4d)) with 4%nat in E0. rewrite E in E0. injection E0 as <-. rewrite <- V by auto. apply (P0 i k j l Hi Hk Hj Hl).
Qed.
Print Assumptions C186_true.
Example C186_example : argsort_ok (@stable_argsort R _) /\ nth 1 (nth 0 asserted_4d []) 0%Z = 9%Z.
Proof. split; [exact stable_argsort_ok|reflexivity]. Qed.
