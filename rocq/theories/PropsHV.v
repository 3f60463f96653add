(** Property theorems: the hypervolume indicator (C01-C05). *)
From Coq Require Import List Arith Lia ZArith Reals Lra Permutation.
From Verif Require Import Num Exn ListAux NDSSpec HVModel HVSpec HVTheory HVTop HVHom HVExtra.
Import ListNotations.
Open Scope R_scope.

(** * C01 *)

(** The computed value is the volume of the dominated region: up to three objectives for
    every input, and in any dimension if ties do no harm.  Missing: inputs with harmful
    ties in four or more dimensions, for which the claim is false (below). *)
Theorem C01_hypervolume_is_volume_partial : forall minf argsort front ref,
  argsort_ok argsort -> hv_input minf front ref ->
  exists v, hypervolume minf argsort front ref = Ok v /\ is_hypervolume front ref v.
Proof.
  intros minf argsort front ref Ha Hi. exists (HVof front ref).
  split; [exact (hypervolume_HV minf argsort Ha front ref Hi)|].
  apply hv_is_hypervolume. apply Hi.
Qed.
Print Assumptions C01_hypervolume_is_volume_partial.

Theorem C01_up_to_three_objectives : forall minf argsort front ref,
  argsort_ok argsort -> (1 <= length ref <= 3)%nat -> rows_ok front ref -> above_sentinel minf front ref ->
  exists v, hypervolume minf argsort front ref = Ok v /\ is_hypervolume front ref v.
Proof.
  intros minf argsort front ref Ha [H1 H3] Hr Hs. apply C01_hypervolume_is_volume_partial; auto.
  repeat split; auto.
Qed.
Print Assumptions C01_up_to_three_objectives.

Theorem C01_four_objectives_nondominated : forall minf argsort front ref,
  argsort_ok argsort -> length ref = 4%nat -> rows_ok front ref -> above_sentinel minf front ref ->
  (forall p k, In p front -> (k < 4)%nat -> nth k p 0 < nth k ref 0) -> mutually_nondominated front ->
  exists v, hypervolume minf argsort front ref = Ok v /\ is_hypervolume front ref v.
Proof.
  intros minf argsort front ref Ha H4 Hr Hs Hin Hnd. apply C01_hypervolume_is_volume_partial; auto.
  split; [lia|]. split; auto. split; auto. right. apply nondominated_harmless; auto.
Qed.
Print Assumptions C01_four_objectives_nondominated.

Theorem C01_distinct_coordinates : forall minf argsort front ref,
  argsort_ok argsort -> (1 <= length ref)%nat -> rows_ok front ref -> above_sentinel minf front ref ->
  (forall p k, In p front -> (k < length ref)%nat -> nth k p 0 < nth k ref 0) ->
  (forall i j k, (i < length front)%nat -> (j < length front)%nat -> i <> j -> (k < length ref)%nat ->
     nth k (nth i front []) 0 <> nth k (nth j front []) 0) ->
  exists v, hypervolume minf argsort front ref = Ok v /\ is_hypervolume front ref v.
Proof.
  intros minf argsort front ref Ha H1 Hr Hs Hin Hd. apply C01_hypervolume_is_volume_partial; auto.
  split; auto. split; auto. split; auto. right. apply distinct_harmless; auto.
Qed.
Print Assumptions C01_distinct_coordinates.

(** with a stable sort fewer ties do harm *)
Theorem C01_stable_sort_partial : forall minf argsort front ref,
  argsort_stable argsort -> (1 <= length ref)%nat -> rows_ok front ref -> above_sentinel minf front ref ->
  harmless_ties_stable front ref ->
  exists v, hypervolume minf argsort front ref = Ok v /\ is_hypervolume front ref v.
Proof.
  intros minf argsort front ref Ha H1 Hr Hs Ht. exists (HVof front ref). split.
  - apply hypervolume_ok; [apply Ha|]. repeat (split; auto).
  - apply hv_is_hypervolume; auto.
Qed.
Print Assumptions C01_stable_sort_partial.

(** Points strictly inside the reference box and sorted lexicographically, in any
    dimension, with any equal coordinates, repeated and dominated points. *)
Theorem C01_sorted_input : forall minf argsort front ref,
  argsort_stable argsort -> (1 <= length ref)%nat -> rows_ok front ref -> above_sentinel minf front ref ->
  (forall p k, In p front -> (k < length ref)%nat -> nth k p 0 < nth k ref 0) -> lex_sorted front ->
  exists v, hypervolume minf argsort front ref = Ok v /\ is_hypervolume front ref v.
Proof.
  intros minf argsort front ref Ha H1 Hr Hs Hin Hl. apply C01_stable_sort_partial; auto.
  apply lex_harmless; auto.
Qed.
Print Assumptions C01_sorted_input.

(** the volume is determined by the point set, so the theorems above fix the result *)
Theorem C01_volume_unique : forall front ref v w, rows_ok front ref ->
  is_hypervolume front ref v -> is_hypervolume front ref w -> v = w.
Proof. exact is_hypervolume_unique. Qed.
Print Assumptions C01_volume_unique.

(** ** The general claim is false: a dominated set in four dimensions *)
Lemma rows_ok_dec front ref : forallb (fun p => Nat.eqb (length p) (length ref)) front = true -> rows_ok front ref.
Proof. intros H p Hp. apply Nat.eqb_eq. rewrite forallb_forall in H. apply (H p Hp). Qed.

Lemma above_dec m (front : list (list Z)) (ref : list Z) :
  forallb (fun p => forallb (fun k => Z.leb m (nth k p 0 - nth k ref 0)%Z) (seq 0 (length ref))) front = true ->
  above_sentinel (IZR m) (map (map IZR) front) (map IZR ref).
Proof.
  intros H p k Hp _ Hk. rewrite map_length in Hk. apply in_map_iff in Hp as (q & <- & Hq).
  rewrite forallb_forall in H. specialize (H q Hq). rewrite forallb_forall in H.
  specialize (H k ltac:(apply in_seq; lia)). apply Z.leb_le in H. change 0 with (IZR 0). rewrite !map_nth.
  rewrite <- minus_IZR. apply IZR_le; auto.
Qed.

Ltac rmax_eval := repeat match goal with |- context [Rmax ?a ?b] =>
  first [rewrite (Rmax_right a b) by lra | rewrite (Rmax_left a b) by lra] end.

Definition ref4 : list R := [2;2;2;2].
Definition ptA : list R := [0;1;0;1].
Definition ptB : list R := [1;1;1;1].
Definition ptC : list R := [0;1;0;0].
Definition minf4 : R := -100.

Lemma run_ACB : hypervolume minf4 stable_argsort [ptA; ptC; ptB] ref4 = Ok 6.
Proof.
  change ref4 with (map IZR [2;2;2;2]%Z). change minf4 with (IZR (-100)).
  change [ptA; ptC; ptB] with (map (map IZR) [[0;1;0;1];[0;1;0;0];[1;1;1;1]]%Z).
  rewrite hypervolume_run. vm_compute (hypervolume _ _ _ _). reflexivity.
Qed.
Lemma run_CAB : hypervolume minf4 stable_argsort [ptC; ptA; ptB] ref4 = Ok 8.
Proof.
  change ref4 with (map IZR [2;2;2;2]%Z). change minf4 with (IZR (-100)).
  change [ptC; ptA; ptB] with (map (map IZR) [[0;1;0;0];[0;1;0;1];[1;1;1;1]]%Z).
  rewrite hypervolume_run. vm_compute (hypervolume _ _ _ _). reflexivity.
Qed.
Lemma run_CB : hypervolume minf4 stable_argsort [ptC; ptB] ref4 = Ok 8.
Proof.
  change ref4 with (map IZR [2;2;2;2]%Z). change minf4 with (IZR (-100)).
  change [ptC; ptB] with (map (map IZR) [[0;1;0;0];[1;1;1;1]]%Z).
  rewrite hypervolume_run. vm_compute (hypervolume _ _ _ _). reflexivity.
Qed.
Lemma vol_C : is_hypervolume [ptC] ref4 8.
Proof.
  apply is_hv_iff; [apply rows_ok_dec; reflexivity|].
  cbn [map length hv hvs ref4]. unfold box. cbn [prodn]. unfold co, ptC, ref4. cbn [nth]. rmax_eval.
  lra.
Qed.

Lemma rows4 (F : list (list R)) : forallb (fun p => Nat.eqb (length p) 4) F = true -> rows_ok F ref4.
Proof. exact (rows_ok_dec F ref4). Qed.

Theorem C01_hypervolume_is_volume_refuted :
  exists minf argsort front ref v, argsort_ok argsort /\ length ref = 4%nat /\
    rows_ok front ref /\ above_sentinel minf front ref /\
    (forall p k, In p front -> (k < length ref)%nat -> nth k p 0 < nth k ref 0) /\
    hypervolume minf argsort front ref = Ok v /\ ~ is_hypervolume front ref v.
Proof.
  exists minf4, stable_argsort, [ptA; ptC; ptB], ref4, 6.
  split; [exact stable_argsort_ok|]. split; [reflexivity|].
  assert (Hr : rows_ok [ptA; ptC; ptB] ref4) by (apply rows4; reflexivity).
  split; [exact Hr|].
  split; [exact (above_dec (-100) [[0;1;0;1];[0;1;0;0];[1;1;1;1]]%Z [2;2;2;2]%Z eq_refl)|].
  split.
  { intros p k Hp Hk. simpl in Hk.
    destruct Hp as [<-|[<-|[<-|[]]]]; destruct k as [|[|[|[|k]]]]; simpl; try lra; lia. }
  split; [exact run_ACB|].
  intros Hv. assert (8 <= 6); [|lra].
  apply (is_hv_mono [ptC] [ptA; ptC; ptB] ref4); auto.
  - apply rows4; reflexivity.
  - intros p [<-|[]] _. exists ptC. split; [simpl; auto|]. split; auto. intros; lra.
  - exact vol_C.
Qed.
Print Assumptions C01_hypervolume_is_volume_refuted.

(** ** It is false even for mutually non-dominated points strictly inside the reference
    box, in five dimensions *)
Definition ref5 : list R := [2;2;2;2;2].
Definition front5 : list (list R) := [[0;1;0;1;0]; [0;0;1;1;0]; [0;1;0;0;1]].

Lemma run5 : hypervolume minf4 stable_argsort front5 ref5 = Ok 14.
Proof.
  change ref5 with (map IZR [2;2;2;2;2]%Z). change minf4 with (IZR (-100)).
  change front5 with (map (map IZR) [[0;1;0;1;0]; [0;0;1;1;0]; [0;1;0;0;1]]%Z).
  rewrite hypervolume_run. vm_compute (hypervolume _ _ _ _). reflexivity.
Qed.
Lemma vol5 : is_hypervolume front5 ref5 16.
Proof.
  apply is_hv_iff; [apply rows_ok_dec; reflexivity|].
  cbn [front5 map length hv hvs ref5]. unfold box. cbn [prodn]. unfold pjoin, co, ref5. cbn [nth]. rmax_eval. lra.
Qed.

Theorem C01_nondominated_refuted :
  exists minf argsort front ref v w, argsort_ok argsort /\ length ref = 5%nat /\
    rows_ok front ref /\ above_sentinel minf front ref /\ mutually_nondominated front /\
    (forall p k, In p front -> (k < length ref)%nat -> nth k p 0 < nth k ref 0) /\
    hypervolume minf argsort front ref = Ok v /\ is_hypervolume front ref w /\ v <> w.
Proof.
  exists minf4, stable_argsort, front5, ref5, 14, 16.
  split; [exact stable_argsort_ok|]. split; [reflexivity|].
  split; [apply rows_ok_dec; reflexivity|].
  split; [exact (above_dec (-100) [[0;1;0;1;0]; [0;0;1;1;0]; [0;1;0;0;1]]%Z [2;2;2;2;2]%Z eq_refl)|].
  split.
  { intros i j Hi Hj Hne [_ Hw]. simpl in Hi, Hj.
    pose proof (Hw 0%nat) as H0. pose proof (Hw 1%nat) as H1. pose proof (Hw 2%nat) as H2.
    pose proof (Hw 3%nat) as H3. pose proof (Hw 4%nat) as H4. clear Hw.
    destruct i as [|[|[|i]]]; destruct j as [|[|[|j]]]; try lia; simpl in *;
      specialize (H0 ltac:(lia)); specialize (H1 ltac:(lia)); specialize (H2 ltac:(lia));
      specialize (H3 ltac:(lia)); specialize (H4 ltac:(lia)); lra. }
  split.
  { intros p k Hp Hk. simpl in Hk.
    destruct Hp as [<-|[<-|[<-|[]]]]; destruct k as [|[|[|[|[|k]]]]]; simpl; try lra; lia. }
  split; [exact run5|]. split; [exact vol5|lra].
Qed.
Print Assumptions C01_nondominated_refuted.

(** sorted, the same points give the right value *)
Example C01_sorted_example :
  argsort_stable stable_argsort /\ above_sentinel minf4 [[0;0;1;1;0]; [0;1;0;0;1]; [0;1;0;1;0]] ref5 /\
  lex_sorted [[0;0;1;1;0]; [0;1;0;0;1]; [0;1;0;1;0]] /\
  hypervolume minf4 stable_argsort [[0;0;1;1;0]; [0;1;0;0;1]; [0;1;0;1;0]] ref5 = Ok 16.
Proof.
  split; [exact stable_argsort_stable|].
  split; [exact (above_dec (-100) [[0;0;1;1;0]; [0;1;0;0;1]; [0;1;0;1;0]]%Z [2;2;2;2;2]%Z eq_refl)|]. split.
  - intros i j Hij Hj. simpl in Hj. right.
    destruct i as [|[|i]], j as [|[|[|j]]]; try lia.
    + exists 1%nat. split; [intros [|k] Hk; [reflexivity|lia]|simpl; lra].
    + exists 1%nat. split; [intros [|k] Hk; [reflexivity|lia]|simpl; lra].
    + exists 3%nat. split; [intros [|[|[|k]]] Hk; try reflexivity; lia|simpl; lra].
  - change ref5 with (map IZR [2;2;2;2;2]%Z). change minf4 with (IZR (-100)).
    change [[0;0;1;1;0]; [0;1;0;0;1]; [0;1;0;1;0]] with (map (map IZR) [[0;0;1;1;0]; [0;1;0;0;1]; [0;1;0;1;0]]%Z).
    rewrite hypervolume_run. vm_compute (hypervolume _ _ _ _). reflexivity.
Qed.

(** * C02 *)

(** Two fronts that weakly dominate each other's relevant points have the same
    hypervolume, whatever the two sorting routines: so order, repetition, dominated
    points and points outside do not matter. *)
Theorem C02_set_function_partial : forall minf argsort argsort' F G ref,
  argsort_ok argsort -> argsort_ok argsort' -> hv_input minf F ref -> hv_input minf G ref ->
  covered_by F G ref -> covered_by G F ref ->
  hypervolume minf argsort F ref = hypervolume minf argsort' G ref.
Proof.
  intros minf a a' F G ref Ha Ha' HF HG H1 H2.
  rewrite (hypervolume_HV minf a Ha F ref HF), (hypervolume_HV minf a' Ha' G ref HG). f_equal.
  apply Rle_antisym; apply covered_le; auto; first [apply HF|apply HG].
Qed.
Print Assumptions C02_set_function_partial.

(** the set function property of the volume itself, in every dimension *)
Theorem C02_volume_set_function : forall F G ref v,
  rows_ok F ref -> rows_ok G ref -> covered_by F G ref -> covered_by G F ref ->
  is_hypervolume F ref v -> is_hypervolume G ref v.
Proof.
  intros F G ref v HF HG H1 H2 Hv. apply is_hv_iff; auto. apply is_hv_iff in Hv; auto. subst v.
  apply Rle_antisym; apply covered_le; auto.
Qed.
Print Assumptions C02_volume_set_function.

(** instances of [covered_by]: reordering, repetition, dominated and outside points *)
Theorem C02_covered_same_points : forall F G ref, (forall p, In p F <-> In p G) ->
  covered_by F G ref /\ covered_by G F ref.
Proof.
  intros F G ref E. split; intros p Hp Hw; exists p; (split; [apply E; auto|split; auto; intros; lra]).
Qed.
Theorem C02_covered_extra_point : forall F x ref,
  (exists p, In p F /\ weakly_dominates p x) \/ ~ weakly_dominates x ref ->
  covered_by F (x :: F) ref /\ covered_by (x :: F) F ref.
Proof.
  intros F x ref Hx. split.
  - intros p Hp Hw. exists p. split; [simpl; auto|]. split; auto; intros; lra.
  - intros p [<-|Hp] Hw.
    + destruct Hx as [(p & Hp & Hd)|]; [|contradiction]. eauto.
    + exists p. split; auto. split; auto; intros; lra.
Qed.

(** With harmful ties the code is not a set function: reordering the points changes the
    returned value. *)
Theorem C02_set_function_refuted :
  exists minf argsort F G ref v w, argsort_ok argsort /\ Permutation F G /\
    rows_ok F ref /\ above_sentinel minf F ref /\
    hypervolume minf argsort F ref = Ok v /\ hypervolume minf argsort G ref = Ok w /\ v <> w.
Proof.
  exists minf4, stable_argsort, [ptA; ptC; ptB], [ptC; ptA; ptB], ref4, 6, 8.
  split; [exact stable_argsort_ok|]. split; [apply perm_swap|].
  split; [apply rows4; reflexivity|].
  split; [exact (above_dec (-100) [[0;1;0;1];[0;1;0;0];[1;1;1;1]]%Z [2;2;2;2]%Z eq_refl)|].
  split; [exact run_ACB|]. split; [exact run_CAB|lra].
Qed.
Print Assumptions C02_set_function_refuted.

(** * C03 *)
Theorem C03_monotone_partial : forall minf argsort F G ref v w,
  argsort_ok argsort -> hv_input minf F ref -> hv_input minf G ref -> covered_by F G ref ->
  hypervolume minf argsort F ref = Ok v -> hypervolume minf argsort G ref = Ok w -> v <= w.
Proof.
  intros minf a F G ref v w Ha HF HG Hc Hv Hw.
  rewrite (hypervolume_HV minf a Ha F ref HF) in Hv. rewrite (hypervolume_HV minf a Ha G ref HG) in Hw.
  injection Hv as <-. injection Hw as <-. apply covered_le; auto; first [apply HF|apply HG].
Qed.
Print Assumptions C03_monotone_partial.

Theorem C03_strict_iff_partial : forall minf argsort x F ref v w,
  argsort_ok argsort -> hv_input minf (x :: F) ref ->
  hypervolume minf argsort F ref = Ok v -> hypervolume minf argsort (x :: F) ref = Ok w ->
  v <= w /\
  (v < w <-> (forall k, (k < length ref)%nat -> nth k x 0 < nth k ref 0) /\
             (forall p, In p F -> ~ weakly_dominates p x)).
Proof.
  intros minf a x F ref v w Ha Hi Hv Hw.
  rewrite (hypervolume_HV minf a Ha F ref (hv_input_tail minf x F ref Hi)) in Hv.
  rewrite (hypervolume_HV minf a Ha _ ref Hi) in Hw.
  injection Hv as <-. injection Hw as <-. split.
  - apply (hv_incl (length ref) (co ref) (map co F) (map co (x :: F))). simpl; auto.
  - apply strict_iff. apply Hi.
Qed.
Print Assumptions C03_strict_iff_partial.

(** strict Pareto compliance of the volume, in every dimension *)
Theorem C03_volume_strict_iff : forall x F ref v w, rows_ok (x :: F) ref ->
  is_hypervolume F ref v -> is_hypervolume (x :: F) ref w ->
  v <= w /\
  (v < w <-> (forall k, (k < length ref)%nat -> nth k x 0 < nth k ref 0) /\
             (forall p, In p F -> ~ weakly_dominates p x)).
Proof.
  intros x F ref v w Hr Hv Hw. assert (HF : rows_ok F ref) by (intros p Hp; apply Hr; simpl; auto).
  apply is_hv_iff in Hv; auto. apply is_hv_iff in Hw; auto. subst. split.
  - apply (hv_incl (length ref) (co ref) (map co F) (map co (x :: F))). simpl; auto.
  - apply strict_iff; auto.
Qed.
Print Assumptions C03_volume_strict_iff.

(** With harmful ties adding a point can decrease the returned value. *)
Theorem C03_monotone_refuted :
  exists minf argsort x F ref v w, argsort_ok argsort /\ rows_ok (x :: F) ref /\
    above_sentinel minf (x :: F) ref /\
    hypervolume minf argsort F ref = Ok v /\ hypervolume minf argsort (x :: F) ref = Ok w /\ w < v.
Proof.
  exists minf4, stable_argsort, ptA, [ptC; ptB], ref4, 8, 6.
  split; [exact stable_argsort_ok|].
  split; [apply rows4; reflexivity|].
  split; [exact (above_dec (-100) [[0;1;0;1];[0;1;0;0];[1;1;1;1]]%Z [2;2;2;2]%Z eq_refl)|].
  split; [exact run_CB|]. split; [exact run_ACB|lra].
Qed.
Print Assumptions C03_monotone_refuted.

(** * C04 *)

(** objective-wise positive affine maps (translations: s = 1, scalings: t = 0) *)
Theorem C04_affine_partial : forall minf minf' argsort argsort' s t F F' ref ref' v,
  argsort_ok argsort -> argsort_ok argsort' ->
  hv_input minf F ref -> hv_input minf' F' ref' ->
  (forall k, (k < length ref)%nat -> 0 < s k) ->
  affine_image s t ref ref' -> Forall2 (affine_image s t) F F' ->
  hypervolume minf argsort F ref = Ok v ->
  hypervolume minf' argsort' F' ref' = Ok (fold_right Rmult 1 (map s (seq 0 (length ref))) * v).
Proof.
  intros minf minf' a a' s t F F' ref ref' v Ha Ha' HF HF' Hs Hr Hi Hv.
  rewrite (hypervolume_HV minf a Ha F ref HF) in Hv. injection Hv as <-.
  rewrite (hypervolume_HV minf' a' Ha' F' ref' HF'). f_equal.
  rewrite <- prodn_fold. apply (affine_HV s t); auto. apply HF.
Qed.
Print Assumptions C04_affine_partial.

Theorem C04_objective_permutation_partial : forall minf minf' argsort argsort' sigma F F' ref ref' v,
  argsort_ok argsort -> argsort_ok argsort' ->
  hv_input minf F ref -> hv_input minf' F' ref' ->
  Permutation (map sigma (seq 0 (length ref))) (seq 0 (length ref)) ->
  coord_perm sigma ref ref' -> Forall2 (coord_perm sigma) F F' ->
  hypervolume minf argsort F ref = Ok v -> hypervolume minf' argsort' F' ref' = Ok v.
Proof.
  intros minf minf' a a' s F F' ref ref' v Ha Ha' HF HF' Hs Hr Hi Hv.
  rewrite (hypervolume_HV minf a Ha F ref HF) in Hv. injection Hv as <-.
  rewrite (hypervolume_HV minf' a' Ha' F' ref' HF'). f_equal.
  apply (coord_perm_HV s); auto. apply HF.
Qed.
Print Assumptions C04_objective_permutation_partial.

(** the same for the volume, in every dimension *)
Theorem C04_volume_affine : forall s t F F' ref ref' v,
  rows_ok F ref -> (forall k, (k < length ref)%nat -> 0 < s k) ->
  affine_image s t ref ref' -> Forall2 (affine_image s t) F F' ->
  is_hypervolume F ref v ->
  is_hypervolume F' ref' (fold_right Rmult 1 (map s (seq 0 (length ref))) * v).
Proof.
  intros s t F F' ref ref' v HF Hs Hr Hi Hv. apply is_hv_iff in Hv; auto. subst v.
  apply is_hv_iff.
  - unfold rows_ok. destruct Hr as [-> _]. clear Hs. induction Hi as [|p p' F F' [Hp _] Hi IH]; intros q Hq; [destruct Hq|].
    destruct Hq as [<-|Hq]; [rewrite Hp; apply HF; simpl; auto|].
    apply IH; auto. intros p0 Hp0. apply HF; simpl; auto.
  - rewrite <- prodn_fold. symmetry. apply (affine_HV s t); auto.
Qed.
Print Assumptions C04_volume_affine.

Theorem C04_volume_objective_permutation : forall sigma F F' ref ref' v,
  rows_ok F ref -> Permutation (map sigma (seq 0 (length ref))) (seq 0 (length ref)) ->
  coord_perm sigma ref ref' -> Forall2 (coord_perm sigma) F F' ->
  is_hypervolume F ref v -> is_hypervolume F' ref' v.
Proof.
  intros s F F' ref ref' v HF Hs Hr Hi Hv. apply is_hv_iff in Hv; auto. subst v.
  apply is_hv_iff.
  - unfold rows_ok. destruct Hr as [-> _]. clear Hs. induction Hi as [|p p' F F' [Hp _] Hi IH]; intros q Hq; [destruct Hq|].
    destruct Hq as [<-|Hq]; [rewrite Hp; apply HF; simpl; auto|].
    apply IH; auto. intros p0 Hp0. apply HF; simpl; auto.
  - symmetry. apply (coord_perm_HV s); auto.
Qed.
Print Assumptions C04_volume_objective_permutation.

(** * C05 *)
Theorem C05_improvement_partial : forall minf argsort x P ref,
  argsort_ok argsort -> hv_input minf (x :: P) ref ->
  exists v, hypervolume_improvement minf argsort x P ref = Ok v /\ 0 <= v /\
    ((exists p, In p P /\ weakly_dominates p x) -> v = 0) /\
    (0 < v <-> (forall k, (k < length ref)%nat -> nth k x 0 < nth k ref 0) /\
               (forall p, In p P -> ~ weakly_dominates p x)).
Proof.
  intros minf a x P ref Ha Hi. exists (HVof (x :: P) ref - HVof P ref).
  split; [exact (hvi_HV minf a Ha x P ref Hi)|].
  assert (Hle : HVof P ref <= HVof (x :: P) ref).
  { apply (hv_incl (length ref) (co ref) (map co P) (map co (x :: P))). simpl; auto. }
  destruct (strict_iff x P ref) as [S1 S2]; [apply Hi|].
  split; [lra|]. split; [|split].
  - intros (p & Hp & Hd). destruct (Rle_lt_or_eq_dec _ _ Hle) as [Hlt|]; [|lra].
    destruct (S1 Hlt) as [_ Hn]. destruct (Hn p Hp Hd).
  - intros Hlt. apply S1. lra.
  - intros Hc. specialize (S2 Hc). lra.
Qed.
Print Assumptions C05_improvement_partial.

Theorem C05_diminishing_returns_partial : forall minf argsort x P Q ref v w,
  argsort_ok argsort -> hv_input minf (x :: P) ref -> hv_input minf (x :: Q) ref ->
  (forall p, In p P -> In p Q) ->
  hypervolume_improvement minf argsort x P ref = Ok v ->
  hypervolume_improvement minf argsort x Q ref = Ok w -> w <= v.
Proof.
  intros minf a x P Q ref v w Ha HP HQ Hpq Hv Hw.
  rewrite (hvi_HV minf a Ha x P ref HP) in Hv. rewrite (hvi_HV minf a Ha x Q ref HQ) in Hw.
  injection Hv as <-. injection Hw as <-.
  assert (Hle : hvs (length ref) (co ref) (map co P) (co x) <= hvs (length ref) (co ref) (map co Q) (co x)).
  { apply hvs_incl. intros q Hq. apply in_map_iff in Hq as (p & <- & Hp). apply in_map; auto. }
  cbn [map hv]. lra.
Qed.
Print Assumptions C05_diminishing_returns_partial.

(** submodularity of the volume, in every dimension *)
Theorem C05_volume_submodular : forall x P Q ref p px q qx,
  rows_ok (x :: Q) ref -> (forall y, In y P -> In y Q) ->
  is_hypervolume P ref p -> is_hypervolume (x :: P) ref px ->
  is_hypervolume Q ref q -> is_hypervolume (x :: Q) ref qx -> qx - q <= px - p.
Proof.
  intros x P Q ref p px q qx Hr Hpq H1 H2 H3 H4.
  apply is_hv_iff in H1; [|intros y Hy; apply Hr; simpl; auto].
  apply is_hv_iff in H2; [|intros y [<-|Hy]; apply Hr; simpl; auto].
  apply is_hv_iff in H3; [|intros y Hy; apply Hr; simpl; auto].
  apply is_hv_iff in H4; auto. subst.
  assert (Hle : hvs (length ref) (co ref) (map co P) (co x) <= hvs (length ref) (co ref) (map co Q) (co x)).
  { apply hvs_incl. intros y Hy. apply in_map_iff in Hy as (z & <- & Hz). apply in_map; auto. }
  cbn [map hv]. lra.
Qed.
Print Assumptions C05_volume_submodular.

(** With harmful ties the computed improvement can be negative. *)
Theorem C05_improvement_nonnegative_refuted :
  exists minf argsort x P ref v, argsort_ok argsort /\ rows_ok (x :: P) ref /\
    above_sentinel minf (x :: P) ref /\
    hypervolume_improvement minf argsort x P ref = Ok v /\ v < 0.
Proof.
  exists minf4, stable_argsort, ptA, [ptC; ptB], ref4, (6 - 8).
  split; [exact stable_argsort_ok|].
  split; [apply rows4; reflexivity|].
  split; [exact (above_dec (-100) [[0;1;0;1];[0;1;0;0];[1;1;1;1]]%Z [2;2;2;2]%Z eq_refl)|].
  split; [|lra]. unfold hypervolume_improvement. rewrite run_ACB, run_CB. reflexivity.
Qed.
Print Assumptions C05_improvement_nonnegative_refuted.

(** * Examples: the hypotheses are met by concrete inputs *)

(** three objectives with ties, a duplicate, a dominated point and a point outside *)
Example C01_example : exists argsort, argsort_ok argsort /\
  hv_input (-100) [[0;1;2]; [1;0;2]; [1;1;2]; [1;0;2]; [5;0;0]] [3;3;3] /\
  hypervolume (-100) argsort [[0;1;2]; [1;0;2]; [1;1;2]; [1;0;2]; [5;0;0]] [3;3;3] = Ok 8.
Proof.
  exists stable_argsort. split; [exact stable_argsort_ok|]. split.
  - split; [simpl; lia|]. split; [apply rows_ok_dec; reflexivity|]. split; [|left; simpl; lia].
    exact (above_dec (-100) [[0;1;2]; [1;0;2]; [1;1;2]; [1;0;2]; [5;0;0]]%Z [3;3;3]%Z eq_refl).
  - change [3;3;3] with (map IZR [3;3;3]%Z).
    change [[0;1;2]; [1;0;2]; [1;1;2]; [1;0;2]; [5;0;0]]
      with (map (map IZR) [[0;1;2]; [1;0;2]; [1;1;2]; [1;0;2]; [5;0;0]]%Z).
    rewrite (hypervolume_run (-100)). vm_compute (hypervolume _ _ _ _). reflexivity.
Qed.

(** four objectives, mutually non-dominated, with ties *)
Example C01_example4 :
  hv_input (-100) [[0;1;0;1]; [1;0;0;1]; [0;0;1;1]] [2;2;2;2].
Proof.
  split; [simpl; lia|]. split; [apply rows_ok_dec; reflexivity|]. split.
  - exact (above_dec (-100) [[0;1;0;1]; [1;0;0;1]; [0;0;1;1]]%Z [2;2;2;2]%Z eq_refl).
  - right. apply nondominated_harmless; [reflexivity|apply rows_ok_dec; reflexivity| |].
    + intros p k Hp Hk. destruct Hp as [<-|[<-|[<-|[]]]]; destruct k as [|[|[|[|k]]]]; simpl; try lra; lia.
    + intros i j Hi Hj Hne [_ Hw]. simpl in Hi, Hj.
      pose proof (Hw 0%nat) as H0. pose proof (Hw 1%nat) as H1. pose proof (Hw 2%nat) as H2.
      pose proof (Hw 3%nat) as H3. clear Hw.
      destruct i as [|[|[|i]]]; destruct j as [|[|[|j]]]; try lia; simpl in *;
        specialize (H0 ltac:(lia)); specialize (H1 ltac:(lia)); specialize (H2 ltac:(lia));
        specialize (H3 ltac:(lia)); lra.
Qed.

(** five objectives with different coordinates *)
Example C01_example5 : hv_input (-100) [[0;1;2;3;4]; [4;3;1;0;2]] [9;9;9;9;9].
Proof.
  split; [simpl; lia|]. split; [apply rows_ok_dec; reflexivity|]. split.
  - exact (above_dec (-100) [[0;1;2;3;4]; [4;3;1;0;2]]%Z [9;9;9;9;9]%Z eq_refl).
  - right. apply distinct_harmless; [apply rows_ok_dec; reflexivity| |].
    + intros p k Hp Hk. simpl in Hk.
      destruct Hp as [<-|[<-|[]]]; destruct k as [|[|[|[|[|k]]]]]; simpl; try lra; lia.
    + intros i j k Hi Hj Hne Hk. simpl in Hi, Hj, Hk.
      destruct i as [|[|i]]; destruct j as [|[|j]]; try lia; destruct k as [|[|[|[|[|k]]]]]; simpl; try lra; lia.
Qed.

(** C02: a dominated point, a repeated point and an outside point *)
Example C02_example : covered_by [[0;2]; [1;1]] [[1;1]; [0;2]; [1;2]; [0;2]; [9;0]] [3;3] /\
                      covered_by [[1;1]; [0;2]; [1;2]; [0;2]; [9;0]] [[0;2]; [1;1]] [3;3].
Proof.
  split; intros p Hp Hw.
  - exists p. split; [simpl in *; tauto|]. split; auto; intros; lra.
  - simpl in Hp. destruct Hp as [<-|[<-|[<-|[<-|[<-|[]]]]]].
    + exists [1;1]. split; [simpl; auto|]. split; auto; intros; lra.
    + exists [0;2]. split; [simpl; auto|]. split; auto; intros; lra.
    + exists [1;1]. split; [simpl; auto|]. split; auto. intros [|[|k]] Hk; simpl in *; lra || lia.
    + exists [0;2]. split; [simpl; auto|]. split; auto; intros; lra.
    + exfalso. destruct Hw as [_ Hw]. specialize (Hw 0%nat ltac:(simpl; lia)). simpl in Hw. lra.
Qed.

Example C03_example : hv_input (-100) ([1;1] :: [[0;2]; [2;0]]) [3;3] /\
  (forall k, (k < length [3;3])%nat -> nth k [1;1] 0 < nth k [3;3] 0) /\
  (forall p, In p [[0;2]; [2;0]] -> ~ weakly_dominates p [1;1]).
Proof.
  split; [|split].
  - split; [simpl; lia|]. split; [apply rows_ok_dec; reflexivity|]. split; [|left; simpl; lia].
    exact (above_dec (-100) [[1;1]; [0;2]; [2;0]]%Z [3;3]%Z eq_refl).
  - intros [|[|k]] Hk; simpl in *; lra || lia.
  - intros p [<-|[<-|[]]] [_ Hw].
    + specialize (Hw 1%nat ltac:(simpl; lia)). simpl in Hw. lra.
    + specialize (Hw 0%nat ltac:(simpl; lia)). simpl in Hw. lra.
Qed.

Example C04_example :
  affine_image (fun k => match k with O => 2 | _ => 3 end) (fun _ => 1) [3;3] [7;10] /\
  Forall2 (affine_image (fun k => match k with O => 2 | _ => 3 end) (fun _ => 1)) [[0;2]; [1;1]] [[1;7]; [3;4]] /\
  coord_perm (fun k => (1 - k)%nat) [0;2] [2;0] /\
  Permutation (map (fun k => (1 - k)%nat) (seq 0 2)) (seq 0 2).
Proof.
  repeat split; try (intros [|[|k]] Hk; simpl in *; lra || lia).
  - repeat constructor; intros [|[|k]] Hk; simpl in *; lra || lia.
  - simpl. apply perm_swap.
Qed.

Example C05_example : hv_input (-100) ([1;1] :: [[0;2]]) [3;3] /\ hv_input (-100) ([1;1] :: [[2;0]; [0;2]]) [3;3] /\
  (forall p, In p [[0;2]] -> In p [[2;0]; [0;2]]).
Proof.
  split; [|split].
  - split; [simpl; lia|]. split; [apply rows_ok_dec; reflexivity|]. split; [|left; simpl; lia].
    exact (above_dec (-100) [[1;1]; [0;2]]%Z [3;3]%Z eq_refl).
  - split; [simpl; lia|]. split; [apply rows_ok_dec; reflexivity|]. split; [|left; simpl; lia].
    exact (above_dec (-100) [[1;1]; [2;0]; [0;2]]%Z [3;3]%Z eq_refl).
  - simpl. tauto.
Qed.
