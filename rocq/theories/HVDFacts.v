(** Uniqueness of the specified derivatives and the counterexamples for C06-C09. *)
From Coq Require Import List Arith Lia Bool ZArith Reals Lra.
From Coquelicot Require Import Coquelicot.
From Verif Require Import Num Exn ListAux NDSModel NDSSpec HVModel HVSpec HVTheory HVTop HVHom HVExtra
  HVDModel HVDSpec HVDTheory HVDProof HVDTop HVHTheory HVHProof HVDHom HVDEval.
Import ListNotations.
Open Scope R_scope.

Lemma left_slope_unique F ref i k g g' : rows_ok F ref -> (i < length F)%nat ->
  is_left_slope F ref i k g -> is_left_slope F ref i k g' -> g = g'.
Proof.
  intros Hr Hi (e & He & H1) (e' & He' & H2).
  set (t := coord F i k - Rmin e e' / 2).
  assert (Hm : 0 < Rmin e e') by (apply Rmin_glb_lt; auto). pose proof (Rmin_l e e'). pose proof (Rmin_r e e').
  pose proof (hv_is_hypervolume F ref Hr) as Hv.
  pose proof (hv_is_hypervolume (set_coord F i k t) ref (rows_set_coord _ _ _ _ _ Hr Hi)) as Hw.
  specialize (H1 t _ _ ltac:(unfold t; lra) Hv Hw). specialize (H2 t _ _ ltac:(unfold t; lra) Hv Hw).
  rewrite H1 in H2. unfold t in H2.
  assert (E : (g - g') * Rmin e e' = 0) by nra. apply Rmult_integral in E as [E|E]; lra.
Qed.
Lemma slope_left F ref i k g : is_slope F ref i k g -> is_left_slope F ref i k g.
Proof. intros (e & He & Hs). exists e. split; auto. intros t v w Ht. apply Hs. lra. Qed.
Lemma slope_unique F ref i k g g' : rows_ok F ref -> (i < length F)%nat ->
  is_slope F ref i k g -> is_slope F ref i k g' -> g = g'.
Proof. intros Hr Hi H1 H2. apply (left_slope_unique F ref i k); auto using slope_left. Qed.

Lemma hess_unique F ref d i k j l h h' : rows_ok F ref -> length ref = S (S d) -> general_position F ref -> inside F ref ->
  (i < length F)%nat -> (k < length ref)%nat -> (j < length F)%nat -> (l < length ref)%nat ->
  is_hess F ref i k j l h -> is_hess F ref i k j l h' -> h = h'.
Proof.
  intros Hr Hd HG Hin Hi Hk Hj Hl (e & He & H1) (e' & He' & H2).
  destruct (safe_gap F ref d Hd HG Hin j l Hj Hl) as (e0 & He0 & Hs).
  set (m := Rmin (Rmin e e') e0).
  assert (Hm : 0 < m) by (unfold m; repeat apply Rmin_glb_lt; auto).
  pose proof (Rmin_l e e'). pose proof (Rmin_r e e'). pose proof (Rmin_l (Rmin e e') e0). pose proof (Rmin_r (Rmin e e') e0).
  fold m in H3, H4.
  set (t := coord F j l - m / 2).
  assert (Hp : is_partial F ref i k (gradf F ref i k)).
  { apply slope_partial; auto. apply two_sided_slope; auto. apply (proj1 HG); auto. }
  assert (Hq : is_partial (set_coord F j l t) ref i k (gradf (set_coord F j l t) ref i k)).
  { apply (perturbed_partial F ref); auto. apply Hs. unfold t; lra. }
  specialize (H1 t _ _ ltac:(unfold t; lra) Hp Hq). specialize (H2 t _ _ ltac:(unfold t; lra) Hp Hq).
  rewrite H1 in H2. unfold t in H2.
  assert (E : (h - h') * m = 0) by nra. apply Rmult_integral in E as [E|E]; lra.
Qed.

Notation ofZ := (map (map IZR)).

(** a mutually non-dominated set in six objectives with ties *)
Definition F6 : list (list Z) := [[0;1;0;0;1;0];[0;0;1;0;1;0];[0;1;0;0;0;1];[0;0;0;1;0;1]]%Z.
Definition r6 : list Z := [2;2;2;2;2;2]%Z.
Lemma run6 : exists g, hypervolume_dY (IZR (-100)) stable_argsort (ofZ F6) (map IZR r6) = Ok g /\ coord g 3 3 = -8.
Proof.
  eexists. split; [apply hypervolume_dY_run; vm_compute; reflexivity|]. rewrite coord_IZR. reflexivity.
Qed.
Lemma true6 : gradf (ofZ F6) (map IZR r6) 3 3 = -6.
Proof. rewrite gradf_eval. reflexivity. Qed.

(** one point outside the reference box *)
Definition F3 : list (list Z) := [[5;0;0]]%Z.
Definition r3 : list Z := [3;3;3]%Z.
Lemma run3 : exists g, compute_HVdY (IZR (-100)) stable_argsort 3 (ofZ F3) (map IZR r3) = Ok g /\ coord g 0 0 = -9.
Proof.
  eexists. split; [apply compute_HVdY_run; vm_compute; reflexivity|]. rewrite coord_IZR. reflexivity.
Qed.
Definition F2 : list (list Z) := [[5;0];[1;1]]%Z.
Definition r2 : list Z := [3;3]%Z.
Lemma run2 : exists g, compute_HVdY (IZR (-100)) stable_argsort 2 (ofZ F2) (map IZR r2) = Ok g /\
  coord g 1 1 = -4 /\ coord g 0 0 = -1 /\ coord g 0 1 = 2.
Proof.
  eexists. split; [apply compute_HVdY_run; vm_compute; reflexivity|]. rewrite !coord_IZR. repeat split; reflexivity.
Qed.
Lemma true2 : gradf (ofZ F2) (map IZR r2) 1 1 = -2.
Proof. rewrite gradf_eval. reflexivity. Qed.

(** eight objectives, general position, inside the box *)
Definition F8 : list (list Z) :=
  [[1;9;10;10;10;10;10;10];[9;2;1;1;11;14;4;13];[4;3;3;2;12;11;14;11];[2;1;4;3;3;13;11;12];[3;4;2;4;2;12;13;14]]%Z.
Definition r8 : list Z := [10;10;16;16;16;16;16;16]%Z.
Lemma run8 : exists H, compute_HVdY2 (IZR (-100)) stable_argsort 8 (ofZ F8) (map IZR r8) = Ok H /\ hentry H 0 1 1 0 = -936.
Proof.
  eexists. split; [apply compute_HVdY2_run; vm_compute; reflexivity|]. reflexivity.
Qed.
Lemma true8 : hessf (ofZ F8) (map IZR r8) 6 0 1 1 0 = -1080.
Proof. rewrite hessf_eval. vm_compute. reflexivity. Qed.
