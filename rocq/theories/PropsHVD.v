(** Property theorems: gradient and Hessian of the hypervolume (C06-C09). *)
From Coq Require Import List Arith Lia Bool ZArith Reals Lra.
From Coquelicot Require Import Coquelicot.
From Verif Require Import Num Exn ListAux NDSModel NDSSpec NDSTop HVModel HVSpec HVTheory HVTop HVHom HVExtra
  HVDModel HVDSpec HVDTheory HVDProof HVDTop HVHTheory HVHProof HVDHom HVDEval HVDFacts HVDUnst.
Import ListNotations.
Open Scope R_scope.

(** * C06 *)

(** Every entry of [hypervolume_dY] on a mutually non-dominated set inside the reference
    box is the left derivative, and the derivative if no other point shares the
    coordinate.  With five objectives and equal coordinates the sort of the hypervolume
    code has to be stable.  Missing: sets with equal coordinates in six or more
    objectives, for which the claim is false (below). *)
Theorem C06_front_gradient_partial : forall minf argsort F ref,
  argsort_ok argsort -> rows_ok F ref -> (2 <= length ref)%nat -> above_all minf F ref ->
  ((length ref <= 4)%nat \/ general_position F ref \/ (length ref = 5%nat /\ argsort_stable argsort)) ->
  mutually_nondominated F -> inside F ref ->
  exists g, hypervolume_dY minf argsort F ref = Ok g /\ shape (length F) (length ref) g /\
    forall i k, (i < length F)%nat -> (k < length ref)%nat ->
      is_left_slope F ref i k (coord g i k) /\
      (no_tie F i k -> is_slope F ref i k (coord g i k) /\ is_partial F ref i k (coord g i k)).
Proof.
  intros minf argsort F ref Ha Hr H2 Hab Hdim Hnd Hin.
  assert (Hdim' : dims_ok argsort F ref).
  { destruct Hdim as [H|[H|[H5 Hst]]]; [left; auto|right; left; auto|right; right].
    split; auto. split; auto. split; [intros i k Hi Hk; apply Rlt_not_eq, Hin; auto|].
    left. intros i j Hi Hj Hdom. destruct (Nat.eq_dec j i) as [->|Hne]; [exact (dominates_irrefl _ Hdom)|].
    apply (Hnd j i Hj Hi Hne). destruct Hdom as (D1 & D2 & _). split; auto. }
  destruct (front_gradient minf argsort Ha F ref Hr H2 Hab Hdim' Hnd Hin) as (g & E & Hs & Hg).
  exists g. split; auto. split; auto. intros i k Hi Hk. apply Hg; auto.
Qed.
Print Assumptions C06_front_gradient_partial.

Example C06_nonvacuous : exists F ref, (length F = 3 /\ length ref = 3)%nat /\
  argsort_ok stable_argsort /\ rows_ok F ref /\ above_all (-100) F ref /\
  mutually_nondominated F /\ inside F ref /\ no_tie F 0 0 /\ ~ no_tie F 1 2.
Proof.
  exists (ofZ [[0;1;2];[1;2;0];[2;0;0]]%Z), (map IZR [3;3;3]%Z).
  split; [split; reflexivity|]. split; [exact stable_argsort_ok|].
  split; [apply rows_ok_zdec; reflexivity|]. split; [apply (above_all_dec (-100)); reflexivity|].
  split; [apply mnd_dec; reflexivity|]. split; [apply inside_dec; reflexivity|].
  split; [apply no_tie_dec; reflexivity|]. intros Hc. apply (Hc 2%nat); simpl; auto; lia.
Qed.

Example C06_nonvacuous5 : exists F ref g, (length F = 3 /\ length ref = 5)%nat /\
  argsort_stable stable_argsort /\ rows_ok F ref /\ above_all (-100) F ref /\
  mutually_nondominated F /\ inside F ref /\ no_tie F 1 1 /\ ~ no_tie F 0 0 /\
  hypervolume_dY (-100) stable_argsort F ref = Ok g /\ coord g 1 1 = -4.
Proof.
  exists (ofZ [[0;1;0;1;0]; [0;0;1;1;0]; [0;1;0;0;1]]%Z), (map IZR [2;2;2;2;2]%Z).
  eexists. split; [split; reflexivity|]. split; [exact stable_argsort_stable|].
  split; [apply rows_ok_zdec; reflexivity|]. split; [apply (above_all_dec (-100)); reflexivity|].
  split; [apply mnd_dec; reflexivity|]. split; [apply inside_dec; reflexivity|].
  split; [apply no_tie_dec; reflexivity|]. split; [intros Hc; apply (Hc 1%nat); simpl; auto; lia|].
  split; [apply (hypervolume_dY_run (-100)); vm_compute; reflexivity|]. reflexivity.
Qed.

(** from three objectives on, the set need be neither non-dominated nor inside the box *)
Theorem C06_any_points : forall minf argsort F ref,
  argsort_ok argsort -> rows_ok F ref -> (3 <= length ref)%nat -> above_all minf F ref ->
  ((length ref <= 4)%nat \/ general_position F ref \/
   (length ref = 5%nat /\ argsort_stable argsort /\ off_reference F ref /\
    forall i j, (i < length F)%nat -> (j < length F)%nat -> ~ dominates (nth j F []) (nth i F []))) ->
  exists g, hypervolume_dY minf argsort F ref = Ok g /\ shape (length F) (length ref) g /\
    forall i k, (i < length F)%nat -> (k < length ref)%nat -> coord F i k < nth k ref 0 ->
      is_left_slope F ref i k (coord g i k) /\
      (no_tie F i k -> is_slope F ref i k (coord g i k) /\ is_partial F ref i k (coord g i k)).
Proof.
  intros minf argsort F ref Ha Hr H3 Hab Hdim. apply (any_gradient minf argsort Ha F ref); auto.
  destruct Hdim as [H|[H|(H5 & Hst & Ho & Hnd)]]; [left; auto|right; left; auto|right; right]. repeat (split; auto).
Qed.
Print Assumptions C06_any_points.

(** the three notions of derivative determine the number *)
Theorem C06_derivative_unique : forall F ref i k g g', rows_ok F ref -> (i < length F)%nat ->
  (is_left_slope F ref i k g -> is_left_slope F ref i k g' -> g = g') /\
  (is_slope F ref i k g -> is_slope F ref i k g' -> g = g') /\
  (is_partial F ref i k g -> is_partial F ref i k g' -> g = g').
Proof.
  intros. split; [apply left_slope_unique; auto|]. split; [apply slope_unique; auto|apply partial_unique; auto].
Qed.
Print Assumptions C06_derivative_unique.

(** six objectives, equal coordinates: the entry is -8, the derivative -6, although no
    other point shares this coordinate *)
Theorem C06_front_gradient_refuted :
  exists minf argsort F ref g i k, argsort_ok argsort /\ length ref = 6%nat /\ rows_ok F ref /\ above_all minf F ref /\
    mutually_nondominated F /\ inside F ref /\ no_tie F i k /\ (i < length F)%nat /\ (k < length ref)%nat /\
    hypervolume_dY minf argsort F ref = Ok g /\
    ~ is_left_slope F ref i k (coord g i k) /\ ~ is_slope F ref i k (coord g i k) /\ ~ is_partial F ref i k (coord g i k).
Proof.
  destruct run6 as (g & Eg & Hg).
  exists (IZR (-100)), stable_argsort, (ofZ F6), (map IZR r6), g, 3%nat, 3%nat.
  assert (Hr : rows_ok (ofZ F6) (map IZR r6)) by (apply rows_ok_zdec; reflexivity).
  assert (Hin : inside (ofZ F6) (map IZR r6)) by (apply inside_dec; reflexivity).
  assert (Hnt : no_tie (ofZ F6) 3 3) by (apply no_tie_dec; reflexivity).
  assert (Hi : (3 < length (ofZ F6))%nat) by (simpl; lia). assert (Hk : (3 < length (map IZR r6))%nat) by (simpl; lia).
  assert (Hs : is_slope (ofZ F6) (map IZR r6) 3 3 (-6)).
  { rewrite <- true6. apply two_sided_slope; auto. }
  split; [exact stable_argsort_ok|]. split; [reflexivity|]. split; auto.
  split; [apply above_all_dec; reflexivity|]. split; [apply mnd_dec; reflexivity|]. split; auto. split; auto.
  split; auto. split; auto. split; auto. rewrite Hg.
  split; [|split]; intros Hc.
  - pose proof (left_slope_unique _ _ _ _ _ _ Hr Hi (slope_left _ _ _ _ _ Hs) Hc). lra.
  - pose proof (slope_unique _ _ _ _ _ _ Hr Hi Hs Hc). lra.
  - pose proof (partial_unique _ _ _ _ _ _ Hr Hi (slope_partial _ _ _ _ _ Hi Hs) Hc). lra.
Qed.
Print Assumptions C06_front_gradient_refuted.

(** The stability of the sort is needed: five objectives and a sort that reverses equal
    elements, the entry is 0, the derivative -8. *)
Theorem C06_unstable_refuted :
  exists minf argsort F ref g i k, argsort_ok argsort /\ length ref = 5%nat /\ rows_ok F ref /\ above_all minf F ref /\
    mutually_nondominated F /\ inside F ref /\ no_tie F i k /\ (i < length F)%nat /\ (k < length ref)%nat /\
    hypervolume_dY minf argsort F ref = Ok g /\
    ~ is_left_slope F ref i k (coord g i k) /\ ~ is_slope F ref i k (coord g i k) /\ ~ is_partial F ref i k (coord g i k).
Proof.
  destruct run5u as (g & Eg & Hg).
  exists (IZR (-100)), rev_argsort, (ofZ F5u), (map IZR r5u), g, 0%nat, 3%nat.
  assert (Hr : rows_ok (ofZ F5u) (map IZR r5u)) by (apply rows_ok_zdec; reflexivity).
  assert (Hin : inside (ofZ F5u) (map IZR r5u)) by (apply inside_dec; reflexivity).
  assert (Hnt : no_tie (ofZ F5u) 0 3) by (apply no_tie_dec; reflexivity).
  assert (Hi : (0 < length (ofZ F5u))%nat) by (simpl; lia). assert (Hk : (3 < length (map IZR r5u))%nat) by (simpl; lia).
  assert (Hs : is_slope (ofZ F5u) (map IZR r5u) 0 3 (-8)).
  { rewrite <- true5u. apply two_sided_slope; auto. }
  split; [exact rev_argsort_ok|]. split; [reflexivity|]. split; auto.
  split; [apply above_all_dec; reflexivity|]. split; [apply mnd_dec; reflexivity|]. split; auto. split; auto.
  split; auto. split; auto. split; auto. rewrite Hg.
  split; [|split]; intros Hc.
  - pose proof (left_slope_unique _ _ _ _ _ _ Hr Hi (slope_left _ _ _ _ _ Hs) Hc). lra.
  - pose proof (slope_unique _ _ _ _ _ _ Hr Hi Hs Hc). lra.
  - pose proof (partial_unique _ _ _ _ _ _ Hr Hi (slope_partial _ _ _ _ _ Hi Hs) Hc). lra.
Qed.
Print Assumptions C06_unstable_refuted.

(** * C07 *)

(** the gradient of the hypervolume of the whole set *)
Theorem C07_full_gradient : forall minf argsort Y ref,
  argsort_ok argsort -> Y <> [] -> rows_ok Y ref -> (2 <= length ref)%nat -> above_all minf Y ref ->
  general_position Y ref -> inside Y ref ->
  exists g, compute_HVdY minf argsort (length ref) Y ref = Ok g /\ shape (length Y) (length ref) g /\
    forall i, (i < length Y)%nat ->
      ((exists j, (j < length Y)%nat /\ dominates (nth j Y []) (nth i Y [])) -> nth i g [] = repeat 0 (length ref)) /\
      forall k, (k < length ref)%nat ->
        is_slope Y ref i k (coord g i k) /\ is_partial Y ref i k (coord g i k) /\ coord g i k <= 0.
Proof.
  intros minf argsort Y ref Ha HY Hr H2 Hab HG Hin.
  destruct (whole_gradient minf argsort Ha Y ref HY Hr H2 Hab (or_intror (or_introl HG)) (fun _ => Hin)) as (g & E & Hs & Hg).
  exists g. split; auto. split; auto. intros i Hi. destruct (Hg i Hi) as [H0 Hg']. split; auto.
  intros k Hk. assert (Hnt : no_tie Y i k) by (apply (proj1 HG); auto).
  rewrite (Hg' k Hk Hnt). assert (Hsl : is_slope Y ref i k (gradf Y ref i k)) by (apply two_sided_slope; auto).
  split; auto. split; [apply slope_partial; auto|apply gradf_nonpos].
Qed.
Print Assumptions C07_full_gradient.

(** up to four objectives, and with a stable sort in five, equal coordinates are allowed;
    the claim is then about the entries whose coordinate is not shared *)
Theorem C07_full_gradient_ties : forall minf argsort Y ref,
  argsort_ok argsort -> Y <> [] -> rows_ok Y ref -> (2 <= length ref <= 4)%nat \/ (length ref = 5%nat /\ argsort_stable argsort) -> above_all minf Y ref -> inside Y ref ->
  exists g, compute_HVdY minf argsort (length ref) Y ref = Ok g /\ shape (length Y) (length ref) g /\
    forall i, (i < length Y)%nat ->
      ((exists j, (j < length Y)%nat /\ dominates (nth j Y []) (nth i Y [])) -> nth i g [] = repeat 0 (length ref)) /\
      forall k, (k < length ref)%nat -> no_tie Y i k ->
        is_slope Y ref i k (coord g i k) /\ is_partial Y ref i k (coord g i k) /\ coord g i k <= 0.
Proof.
  intros minf argsort Y ref Ha HY Hr Hm Hab Hin.
  assert (H2 : (2 <= length ref)%nat) by (destruct Hm as [|[]]; lia).
  assert (Hdim : dims_any argsort Y ref).
  { destruct Hm as [|[H5 Hst]]; [left; lia|right; right]. split; auto. split; auto.
    intros i k Hi Hk. apply Rlt_not_eq, Hin; auto. }
  destruct (whole_gradient minf argsort Ha Y ref HY Hr H2 Hab Hdim (fun _ => Hin)) as (g & E & Hs & Hg).
  exists g. split; auto. split; auto. intros i Hi. destruct (Hg i Hi) as [H0 Hg']. split; auto.
  intros k Hk Hnt. rewrite (Hg' k Hk Hnt).
  assert (Hsl : is_slope Y ref i k (gradf Y ref i k)) by (apply two_sided_slope; auto).
  split; auto. split; [apply slope_partial; auto|apply gradf_nonpos].
Qed.
Print Assumptions C07_full_gradient_ties.

Definition Y7 : list (list Z) := [[1;5;3;2;4];[2;6;4;3;5];[3;4;5;1;2];[4;1;2;5;1];[5;2;6;4;3]]%Z.
Example C07_nonvacuous : exists Y ref, length Y = 5%nat /\ length ref = 5%nat /\ rows_ok Y ref /\
  above_all (-100) Y ref /\ general_position Y ref /\ inside Y ref /\ dominates (nth 0 Y []) (nth 1 Y []) /\
  exists g, compute_HVdY (-100) stable_argsort 5 Y ref = Ok g /\ nth 0 g [] = [-504; -396; -432; -336; -528] /\
    nth 1 g [] = [0;0;0;0;0].
Proof.
  exists (ofZ Y7), (map IZR [10;9;10;8;7]%Z).
  split; [reflexivity|]. split; [reflexivity|]. split; [apply rows_ok_zdec; reflexivity|].
  split; [apply (above_all_dec (-100)); reflexivity|]. split; [apply gp_dec; reflexivity|].
  split; [apply inside_dec; reflexivity|]. split.
  - split; [reflexivity|]. split.
    + intros k Hk. simpl in Hk. do 5 (destruct k as [|k]; [simpl; lra|]). lia.
    + exists 0%nat. split; [simpl; lia|simpl; lra].
  - eexists. split; [apply (compute_HVdY_run (-100)); vm_compute; reflexivity|]. split; reflexivity.
Qed.

(** * C08 *)

(** Three or more objectives: points outside the reference box do not disturb the other
    entries, and an entry is zero if another coordinate of the point is outside.
    Missing: the entry of the outside coordinate itself, and two objectives; both are
    refuted below. *)
Theorem C08_outside_points_partial : forall minf argsort Y ref,
  argsort_ok argsort -> Y <> [] -> rows_ok Y ref -> (3 <= length ref)%nat -> above_all minf Y ref ->
  ((length ref <= 4)%nat \/ general_position Y ref \/
   (length ref = 5%nat /\ argsort_stable argsort /\ off_reference Y ref)) ->
  exists g, compute_HVdY minf argsort (length ref) Y ref = Ok g /\ shape (length Y) (length ref) g /\
    forall i k, (i < length Y)%nat -> (k < length ref)%nat -> no_tie Y i k ->
      (coord Y i k < nth k ref 0 -> is_slope Y ref i k (coord g i k)) /\
      ((exists l, (l < length ref)%nat /\ l <> k /\ nth l ref 0 <= coord Y i l) -> coord g i k = 0).
Proof.
  intros minf argsort Y ref Ha HY Hr H3 Hab Hdim.
  destruct (whole_gradient minf argsort Ha Y ref HY Hr ltac:(lia) Hab Hdim ltac:(lia)) as (g & E & Hs & Hg).
  exists g. split; auto. split; auto. intros i k Hi Hk Hnt. destruct (Hg i Hi) as [_ Hg']. rewrite (Hg' k Hk Hnt). split.
  - intros Hlt. apply two_sided_slope; auto.
  - intros (l & Hl & Hne & Ho). apply (gradf_outside Y ref i k l); auto.
Qed.
Print Assumptions C08_outside_points_partial.

Example C08_nonvacuous : exists Y ref, length ref = 3%nat /\ rows_ok Y ref /\ above_all (-100) Y ref /\
  Y <> [] /\ no_tie Y 0 1 /\ nth 0 ref 0 <= coord Y 0 0 /\ coord Y 0 1 < nth 1 ref 0 /\
  coord Y 1 0 < nth 0 ref 0 /\ no_tie Y 1 0.
Proof.
  exists (ofZ [[5;0;1];[1;1;1]]%Z), (map IZR [3;3;3]%Z).
  split; [reflexivity|]. split; [apply rows_ok_zdec; reflexivity|]. split; [apply (above_all_dec (-100)); reflexivity|].
  split; [discriminate|]. split; [apply no_tie_dec; reflexivity|].
  split; [unfold coord; simpl; lra|]. split; [unfold coord; simpl; lra|]. split; [unfold coord; simpl; lra|].
  apply no_tie_dec; reflexivity.
Qed.

(** The hypervolume does not depend on a coordinate outside the box. *)
Theorem C08_true_derivative_zero : forall F ref i k, rows_ok F ref -> (i < length F)%nat -> (k < length ref)%nat ->
  nth k ref 0 < coord F i k -> is_slope F ref i k 0.
Proof. exact outside_flat. Qed.
Print Assumptions C08_true_derivative_zero.

(** a single point outside the box of three objectives gets a non-zero gradient *)
Theorem C08_outside_points_refuted :
  exists minf argsort Y ref g i k, argsort_ok argsort /\ rows_ok Y ref /\ above_all minf Y ref /\ general_position Y ref /\
    length ref = 3%nat /\ (i < length Y)%nat /\ (k < length ref)%nat /\ nth k ref 0 < coord Y i k /\
    compute_HVdY minf argsort (length ref) Y ref = Ok g /\ coord g i k <> 0 /\ ~ is_slope Y ref i k (coord g i k).
Proof.
  destruct run3 as (g & Eg & Hg).
  exists (IZR (-100)), stable_argsort, (ofZ F3), (map IZR r3), g, 0%nat, 0%nat.
  assert (Hr : rows_ok (ofZ F3) (map IZR r3)) by (apply rows_ok_zdec; reflexivity).
  assert (Hi : (0 < length (ofZ F3))%nat) by (simpl; lia). assert (Hk : (0 < length (map IZR r3))%nat) by (simpl; lia).
  assert (Ho : nth 0 (map IZR r3) 0 < coord (ofZ F3) 0 0) by (unfold coord; simpl; lra).
  split; [exact stable_argsort_ok|]. split; auto. split; [apply above_all_dec; reflexivity|].
  split; [apply gp_dec; reflexivity|]. split; [reflexivity|]. split; auto. split; auto. split; auto. split; auto.
  rewrite Hg. split; [lra|]. intros Hc.
  pose proof (slope_unique _ _ _ _ _ _ Hr Hi (outside_flat _ _ _ _ Hr Hi Hk Ho) Hc). lra.
Qed.
Print Assumptions C08_outside_points_refuted.

(** two objectives: the outside point gets a positive entry, and the entry of the other
    point is wrong *)
Theorem C08_two_objectives_refuted :
  exists minf argsort Y ref g, argsort_ok argsort /\ rows_ok Y ref /\ above_all minf Y ref /\ general_position Y ref /\
    length ref = 2%nat /\ length Y = 2%nat /\ nth 0 ref 0 < coord Y 0 0 /\
    (forall k, (k < 2)%nat -> coord Y 1 k < nth k ref 0) /\
    compute_HVdY minf argsort (length ref) Y ref = Ok g /\
    coord g 0 1 > 0 /\ ~ is_slope Y ref 0 1 (coord g 0 1) /\ ~ is_slope Y ref 1 1 (coord g 1 1).
Proof.
  destruct run2 as (g & Eg & Hg & Hg0 & Hg1).
  exists (IZR (-100)), stable_argsort, (ofZ F2), (map IZR r2), g.
  assert (Hr : rows_ok (ofZ F2) (map IZR r2)) by (apply rows_ok_zdec; reflexivity).
  split; [exact stable_argsort_ok|]. split; auto. split; [apply above_all_dec; reflexivity|].
  split; [apply gp_dec; reflexivity|]. split; [reflexivity|]. split; [reflexivity|].
  split; [unfold coord; simpl; lra|]. split.
  { intros k Hk. destruct k as [|[|k]]; [unfold coord; simpl; lra|unfold coord; simpl; lra|lia]. }
  split; auto. rewrite Hg, Hg1. split; [lra|]. split; intros Hc.
  - assert (Hs : is_slope (ofZ F2) (map IZR r2) 0 1 0).
    { assert (Hs : is_slope (ofZ F2) (map IZR r2) 0 1 (gradf (ofZ F2) (map IZR r2) 0 1)).
      { apply two_sided_slope; auto; try (simpl; lia); [unfold coord; simpl; lra|apply no_tie_dec; reflexivity]. }
      rewrite gradf_eval in Hs. exact Hs. }
    pose proof (slope_unique (ofZ F2) (map IZR r2) 0 1 _ _ Hr ltac:(simpl; lia) Hs Hc). lra.
  - assert (Hs : is_slope (ofZ F2) (map IZR r2) 1 1 (-2)).
    { rewrite <- true2. apply two_sided_slope; auto; try (simpl; lia). unfold coord; simpl; lra. apply no_tie_dec; reflexivity. }
    pose proof (slope_unique (ofZ F2) (map IZR r2) 1 1 _ _ Hr ltac:(simpl; lia) Hs Hc). lra.
Qed.
Print Assumptions C08_two_objectives_refuted.

(** * C09 *)

(** Entry (j,l) of column (i,k) is the derivative of the k-th gradient component of point i
    w.r.t. coordinate l of point j.  With six objectives the sort of the hypervolume code
    has to be stable.  Missing: seven and more objectives; for eight the claim is false
    (below). *)
Theorem C09_hessian_partial : forall minf argsort Y ref,
  argsort_ok argsort -> Y <> [] -> rows_ok Y ref -> (2 <= length ref <= 5)%nat \/ (length ref = 6%nat /\ argsort_stable argsort) ->
  general_position Y ref -> inside Y ref -> above_all minf Y ref ->
  exists H, compute_HVdY2 minf argsort (length ref) Y ref = Ok H /\
    length H = length Y /\ (forall i, (i < length Y)%nat -> length (nth i H []) = length ref /\
      forall k, (k < length ref)%nat -> shape (length Y) (length ref) (nth k (nth i H []) [])) /\
    forall i k j l, (i < length Y)%nat -> (k < length ref)%nat -> (j < length Y)%nat -> (l < length ref)%nat ->
      is_hess Y ref i k j l (nth l (nth j (nth k (nth i H []) []) []) 0) /\
      ((exists a, (a < length Y)%nat /\ dominates (nth a Y []) (nth i Y [])) ->
       nth l (nth j (nth k (nth i H []) []) []) 0 = 0).
Proof. intros minf argsort Y ref Ha. exact (hess_correct minf argsort Ha Y ref). Qed.
Print Assumptions C09_hessian_partial.

(** the derivative is uniquely determined *)
Theorem C09_hessian_unique : forall F ref i k j l h h', rows_ok F ref -> (2 <= length ref)%nat ->
  general_position F ref -> inside F ref ->
  (i < length F)%nat -> (k < length ref)%nat -> (j < length F)%nat -> (l < length ref)%nat ->
  is_hess F ref i k j l h -> is_hess F ref i k j l h' -> h = h'.
Proof.
  intros F ref i k j l h h' Hr H2. destruct (length ref) as [|[|d]] eqn:E; try lia. rewrite <- E.
  exact (hess_unique F ref d i k j l h h' Hr E).
Qed.
Print Assumptions C09_hessian_unique.

Example C09_nonvacuous : exists Y ref, length Y = 5%nat /\ length ref = 5%nat /\ rows_ok Y ref /\
  above_all (-100) Y ref /\ general_position Y ref /\ inside Y ref /\
  exists H, compute_HVdY2 (-100) stable_argsort 5 Y ref = Ok H /\ nth 3 (nth 4 (nth 1 (nth 2 H []) []) []) 0 = -80.
Proof.
  exists (ofZ Y7), (map IZR [10;9;10;8;7]%Z).
  split; [reflexivity|]. split; [reflexivity|]. split; [apply rows_ok_zdec; reflexivity|].
  split; [apply (above_all_dec (-100)); reflexivity|]. split; [apply gp_dec; reflexivity|].
  split; [apply inside_dec; reflexivity|].
  eexists. split; [apply (compute_HVdY2_run (-100)); vm_compute; reflexivity|]. reflexivity.
Qed.

Definition Y6 : list (list Z) := [[1;5;3;2;4;2];[2;4;1;3;5;3];[3;3;5;1;2;4]]%Z.
Example C09_nonvacuous6 : exists Y ref, length Y = 3%nat /\ length ref = 6%nat /\ rows_ok Y ref /\
  argsort_stable stable_argsort /\ above_all (-100) Y ref /\ general_position Y ref /\ inside Y ref /\
  exists H, compute_HVdY2 (-100) stable_argsort 6 Y ref = Ok H /\ nth 0 (nth 1 (nth 1 (nth 0 H []) []) []) 0 = -420.
Proof.
  exists (ofZ Y6), (map IZR [10;9;10;8;7;9]%Z).
  split; [reflexivity|]. split; [reflexivity|]. split; [apply rows_ok_zdec; reflexivity|].
  split; [exact stable_argsort_stable|].
  split; [apply (above_all_dec (-100)); reflexivity|]. split; [apply gp_dec; reflexivity|].
  split; [apply inside_dec; reflexivity|].
  eexists. split; [apply (compute_HVdY2_run (-100)); vm_compute; reflexivity|]. reflexivity.
Qed.

(** eight objectives: the entry is -936, the second derivative -1080 *)
Theorem C09_hessian_refuted :
  exists minf argsort Y ref H i k j l, argsort_ok argsort /\ rows_ok Y ref /\ length ref = 8%nat /\
    general_position Y ref /\ inside Y ref /\ above_all minf Y ref /\ mutually_nondominated Y /\
    (i < length Y)%nat /\ (k < length ref)%nat /\ (j < length Y)%nat /\ (l < length ref)%nat /\
    compute_HVdY2 minf argsort (length ref) Y ref = Ok H /\
    ~ is_hess Y ref i k j l (nth l (nth j (nth k (nth i H []) []) []) 0).
Proof.
  destruct run8 as (H & E & Hh). unfold hentry in Hh.
  exists (IZR (-100)), stable_argsort, (ofZ F8), (map IZR r8), H, 0%nat, 1%nat, 1%nat, 0%nat.
  assert (Hr : rows_ok (ofZ F8) (map IZR r8)) by (apply rows_ok_zdec; reflexivity).
  assert (HG : general_position (ofZ F8) (map IZR r8)) by (apply gp_dec; reflexivity).
  assert (Hin : inside (ofZ F8) (map IZR r8)) by (apply inside_dec; reflexivity).
  split; [exact stable_argsort_ok|]. split; auto. split; [reflexivity|]. split; auto. split; auto.
  split; [apply above_all_dec; reflexivity|]. split; [apply mnd_dec; reflexivity|].
  assert (L1 : (0 < length (ofZ F8))%nat) by (simpl; lia). assert (L2 : (1 < length (map IZR r8))%nat) by (simpl; lia).
  assert (L3 : (1 < length (ofZ F8))%nat) by (simpl; lia). assert (L4 : (0 < length (map IZR r8))%nat) by (simpl; lia).
  split; auto. split; auto. split; auto. split; auto. split; auto. rewrite Hh. intros Hc.
  pose proof (hess_true (ofZ F8) (map IZR r8) 6 Hr eq_refl HG Hin 0 1 1 0 L1 L2 L3 L4) as Ht.
  rewrite true8 in Ht.
  pose proof (hess_unique (ofZ F8) (map IZR r8) 6 0 1 1 0 _ _ Hr eq_refl HG Hin L1 L2 L3 L4 Ht Hc). lra.
Qed.
Print Assumptions C09_hessian_refuted.

(** the stability of the sort is needed for six objectives: the entry is 3, the second
    derivative 0 *)
Theorem C09_unstable_refuted :
  exists minf argsort Y ref H i k j l, argsort_ok argsort /\ rows_ok Y ref /\ length ref = 6%nat /\
    general_position Y ref /\ inside Y ref /\ above_all minf Y ref /\ mutually_nondominated Y /\
    (i < length Y)%nat /\ (k < length ref)%nat /\ (j < length Y)%nat /\ (l < length ref)%nat /\
    compute_HVdY2 minf argsort (length ref) Y ref = Ok H /\
    ~ is_hess Y ref i k j l (nth l (nth j (nth k (nth i H []) []) []) 0).
Proof.
  destruct run6u as (H & E & Hh). unfold hentry in Hh.
  exists (IZR (-100)), rev_argsort, (ofZ F6u), (map IZR r6u), H, 1%nat, 5%nat, 0%nat, 2%nat.
  assert (Hr : rows_ok (ofZ F6u) (map IZR r6u)) by (apply rows_ok_zdec; reflexivity).
  assert (HG : general_position (ofZ F6u) (map IZR r6u)) by (apply gp_dec; reflexivity).
  assert (Hin : inside (ofZ F6u) (map IZR r6u)) by (apply inside_dec; reflexivity).
  split; [exact rev_argsort_ok|]. split; auto. split; [reflexivity|]. split; auto. split; auto.
  split; [apply above_all_dec; reflexivity|]. split; [apply mnd_dec; reflexivity|].
  assert (L1 : (1 < length (ofZ F6u))%nat) by (simpl; lia). assert (L2 : (5 < length (map IZR r6u))%nat) by (simpl; lia).
  assert (L3 : (0 < length (ofZ F6u))%nat) by (simpl; lia). assert (L4 : (2 < length (map IZR r6u))%nat) by (simpl; lia).
  split; auto. split; auto. split; auto. split; auto. split; auto. rewrite Hh. intros Hc.
  pose proof (hess_true (ofZ F6u) (map IZR r6u) 4 Hr eq_refl HG Hin 1 5 0 2 L1 L2 L3 L4) as Ht.
  rewrite true6u in Ht.
  pose proof (hess_unique (ofZ F6u) (map IZR r6u) 4 1 5 0 2 _ _ Hr eq_refl HG Hin L1 L2 L3 L4 Ht Hc). lra.
Qed.
Print Assumptions C09_unstable_refuted.
