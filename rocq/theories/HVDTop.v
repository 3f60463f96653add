(** The gradient of the hypervolume: top-level lemmas. *)
From Coq Require Import List Arith Lia Reals Lra Permutation Bool Sorting.Sorted.
From Coquelicot Require Import Coquelicot.
From Verif Require Import Num Exn ListAux NDSModel NDSSpec NDSProof NDSTop UtilsModel UtilsProof
  HVModel HVSpec HVTheory HVTop HVExtra HVDModel HVDSpec HVDTheory HVDProof.
Import ListNotations.
Open Scope R_scope.

Definition shape (N m : nat) (g : list (list R)) : Prop :=
  length g = N /\ forall r, In r g -> length r = m.

Lemma coord_gradF F ref i k : (i < length F)%nat -> (k < length ref)%nat -> coord (gradF F ref) i k = gradf F ref i k.
Proof.
  intros Hi Hk. unfold coord, gradF.
  match goal with |- nth _ (nth _ (map ?f _) _) _ = _ =>
    rewrite (nth_indep _ [] (f 0%nat)) by (rewrite map_length, seq_length; auto); rewrite (map_nth f) end.
  rewrite seq_nth by auto.
  match goal with |- nth _ (map ?f _) _ = _ =>
    rewrite (nth_indep _ 0 (f 0%nat)) by (rewrite map_length, seq_length; auto); rewrite (map_nth f) end.
  rewrite seq_nth by auto. reflexivity.
Qed.
Lemma gradf_nonpos F ref i k : gradf F ref i k <= 0.
Proof.
  unfold gradf. unfold slope_lt.
  match goal with |- - exc ?d ?r ?P ?q <= 0 => pose proof (exc_nonneg d r P q) end. lra.
Qed.

Lemma nth_repeat_z n k : nth k (repeat 0 n) 0 = 0.
Proof. revert k. induction n; intros [|k]; simpl; auto. Qed.

Section Code.
Variable minf : R.
Variable argsort : list R -> list nat.
Hypothesis Ha : argsort_ok argsort.

Lemma dY_correct F ref : rows_ok F ref -> (2 <= length ref)%nat -> above_all minf F ref -> dims_ok argsort F ref ->
  (length ref = 2%nat -> antitone F /\ forall j l, (j < length F)%nat -> (l < 2)%nat -> coord F j l <= nth l ref 0) ->
  exists g, hypervolume_dY minf argsort F ref = Ok g /\ shape (length F) (length ref) g /\
    forall i k, (i < length F)%nat -> (k < length ref)%nat -> (length ref = 2%nat -> no_tie F i k) ->
      coord g i k = gradf F ref i k.
Proof.
  intros Hr H2 Hab Hdim H2c. destruct (Nat.eq_dec (length ref) 2) as [E|E].
  - exists (dY2 F ref). destruct (H2c E) as [Hanti Hin]. split; [unfold hypervolume_dY; rewrite E; auto|]. split.
    + split; [unfold dY2; rewrite map_length, seq_length; auto|]. intros r Hr'. unfold dY2 in Hr'.
      apply in_map_iff in Hr' as (s & <- & _). rewrite E. reflexivity.
    + intros i k Hi Hk Hnt. apply dY2_entry; auto. lia.
  - exists (gradF F ref). split; [apply dY_ge3; auto; lia|]. split.
    + split; [unfold gradF; rewrite map_length, seq_length; auto|]. intros r Hr'. unfold gradF in Hr'.
      apply in_map_iff in Hr' as (s & <- & _). rewrite map_length, seq_length. reflexivity.
    + intros. apply coord_gradF; auto.
Qed.

Lemma mutually_antitone F ref : rows_ok F ref -> length ref = 2%nat -> mutually_nondominated F ->
  antitone F /\ forall i k, (i < length F)%nat -> (k < 2)%nat -> no_tie F i k.
Proof.
  intros Hr E Hnd.
  assert (Hw : forall i j, (i < length F)%nat -> (j < length F)%nat -> i <> j ->
    coord F i 0 <= coord F j 0 -> coord F i 1 <= coord F j 1 -> False).
  { intros i j Hi Hj Hne H0 H1. apply (Hnd i j Hi Hj Hne).
    pose proof (Hr (nth i F []) ltac:(apply nth_In; auto)). pose proof (Hr (nth j F []) ltac:(apply nth_In; auto)).
    split; [congruence|]. intros k Hk. destruct k as [|[|k]]; auto. lia. }
  split.
  - intros i j Hi Hj Hgt. destruct (Rle_dec (coord F i 0) (coord F j 0)); auto. exfalso.
    destruct (Nat.eq_dec i j) as [->|Hne]; [lra|]. apply (Hw j i); auto; lra.
  - intros i k Hi Hk j Hj Hne Heq. destruct (Rle_dec (coord F i (1 - k)) (coord F j (1 - k))).
    + apply (Hw i j); auto; destruct k as [|[|k]]; simpl in *; try lia; lra.
    + apply (Hw j i); auto; destruct k as [|[|k]]; simpl in *; try lia; lra.
Qed.

Lemma front_gradient F ref : rows_ok F ref -> (2 <= length ref)%nat -> above_all minf F ref -> dims_ok argsort F ref ->
  mutually_nondominated F -> inside F ref ->
  exists g, hypervolume_dY minf argsort F ref = Ok g /\ shape (length F) (length ref) g /\
    forall i k, (i < length F)%nat -> (k < length ref)%nat ->
      coord g i k = gradf F ref i k /\ is_left_slope F ref i k (coord g i k) /\
      (no_tie F i k -> is_slope F ref i k (coord g i k) /\ is_partial F ref i k (coord g i k)).
Proof.
  intros Hr H2 Hab Hdim Hnd Hin.
  destruct (dY_correct F ref Hr H2 Hab Hdim) as (g & E & Hsh & Hg).
  - intros E. split; [apply (mutually_antitone F ref); auto|]. intros j l Hj Hl. apply Rlt_le, Hin; auto. lia.
  - exists g. split; auto. split; auto. intros i k Hi Hk.
    rewrite (Hg i k Hi Hk) by (intros E'; apply (mutually_antitone F ref); auto; lia).
    split; auto. split; [apply left_slope; auto; apply Rlt_le, Hin; auto|].
    intros Hnt. assert (Hs : is_slope F ref i k (gradf F ref i k)) by (apply two_sided_slope; auto).
    split; auto. apply slope_partial; auto.
Qed.

(** at least three objectives: any set, only the point itself has to be inside *)
Lemma any_gradient F ref : rows_ok F ref -> (3 <= length ref)%nat -> above_all minf F ref -> dims_ok argsort F ref ->
  exists g, hypervolume_dY minf argsort F ref = Ok g /\ shape (length F) (length ref) g /\
    forall i k, (i < length F)%nat -> (k < length ref)%nat -> coord F i k < nth k ref 0 ->
      is_left_slope F ref i k (coord g i k) /\
      (no_tie F i k -> is_slope F ref i k (coord g i k) /\ is_partial F ref i k (coord g i k)).
Proof.
  intros Hr H2 Hab Hdim.
  destruct (dY_correct F ref Hr ltac:(lia) Hab Hdim) as (g & E & Hsh & Hg); [lia|].
  exists g. split; auto. split; auto. intros i k Hi Hk Hlt.
  rewrite (Hg i k Hi Hk) by lia.
  split; [apply left_slope; auto; lra|].
  intros Hnt. assert (Hs : is_slope F ref i k (gradf F ref i k)) by (apply two_sided_slope; auto).
  split; auto. apply slope_partial; auto.
Qed.

(** * The whole set *)
Lemma gather_coord Y nd s k : (s < length nd)%nat -> coord (gather [] Y nd) s k = coord Y (nth s nd 0%nat) k.
Proof. intros Hs. unfold coord. rewrite gather_nth by auto. reflexivity. Qed.

Lemma gradf_nd Y ref nd s k : rows_ok Y ref -> (k < length ref)%nat ->
  (forall i, In i nd -> (i < length Y)%nat) ->
  (forall i, (i < length Y)%nat -> exists j, In j nd /\ weakly_dominates (row Y j) (row Y i)) ->
  (s < length nd)%nat -> gradf (gather [] Y nd) ref s k = gradf Y ref (nth s nd 0%nat) k.
Proof.
  intros Hr Hk Hran Hcov Hs. unfold gradf. f_equal. rewrite gather_nth by auto.
  set (y := nth (nth s nd 0%nat) Y []). unfold slope_lt. apply exc_cover.
  - intros p Hp. exists p. split; [|intros; lra]. apply in_map_iff in Hp as (q & <- & Hq). apply in_map.
    apply filter_In in Hq as [Hq Hlt]. apply filter_In. split; auto.
    apply in_map_iff in Hq as (q' & <- & Hq). apply in_map. apply in_map_iff in Hq as (j & <- & Hj). apply nth_In. auto.
  - intros p Hp. apply in_map_iff in Hp as (q & <- & Hq). apply filter_In in Hq as [Hq Hlt]. apply ltb_true in Hlt.
    apply in_map_iff in Hq as (q' & <- & Hq). apply In_nth with (d := []) in Hq as (i & Hi & <-).
    destruct (Hcov i Hi) as (j & Hj & Hw & Hle). unfold row in *.
    assert (Hl : length (nth j Y []) = length ref) by (apply Hr, nth_In; auto).
    assert (Hle' : forall l, (l < length ref)%nat -> co (nth j Y []) l <= co (nth i Y []) l).
    { intros l Hl'. apply Hle. lia. }
    exists (drop k (co (nth j Y []))). split.
    + apply in_map. apply filter_In. split.
      * apply in_map. unfold gather. apply in_map_iff. eauto.
      * apply ltb_true. specialize (Hle' k Hk). lra.
    + intros l Hl'. unfold drop. destruct (Nat.ltb_spec l k); apply Hle'; lia.
Qed.

Lemma gradf_dominated Y ref i j k : rows_ok Y ref -> (i < length Y)%nat -> (j < length Y)%nat -> (k < length ref)%nat ->
  weakly_dominates (row Y j) (row Y i) -> coord Y j k <> coord Y i k -> gradf Y ref i k = 0.
Proof.
  intros Hr Hi Hj Hk [Hw Hle] Hne. unfold row in *.
  assert (Hl : length (nth j Y []) = length ref) by (apply Hr, nth_In; auto).
  assert (Hle' : forall l, (l < length ref)%nat -> co (nth j Y []) l <= co (nth i Y []) l).
  { intros l Hl'. apply Hle. lia. }
  unfold gradf, slope_lt. rewrite (exc_dominated _ _ _ _ (drop k (co (nth j Y [])))); [ring| |].
  - apply in_map. apply filter_In. split; [apply in_map, nth_In; auto|]. apply ltb_true.
    specialize (Hle' k Hk). unfold coord in Hne. unfold co in *. lra.
  - intros l Hl'. unfold drop. destruct (Nat.ltb_spec l k); apply Hle'; lia.
Qed.

Lemma forallb_rows Y (ref : list R) : rows_ok Y ref -> forallb (fun p => (length p =? length ref)%nat) Y = true.
Proof. intros Hr. apply forallb_forall. intros p Hp. apply Nat.eqb_eq. auto. Qed.

Lemma nd_rows Y ref nd : rows_ok Y ref -> (forall i, In i nd -> (i < length Y)%nat) -> rows_ok (gather [] Y nd) ref.
Proof. intros Hr Hran p Hp. apply in_map_iff in Hp as (i & <- & Hi). apply Hr, nth_In; auto. Qed.

(** five objectives: the rows that count are not dominated *)
Definition dims_any (Y : list (list R)) (ref : list R) : Prop :=
  (length ref <= 4)%nat \/ general_position Y ref \/
  (length ref = 5%nat /\ argsort_stable argsort /\ off_reference Y ref).
Lemma nd_dims Y ref nd : NoDup nd -> (forall i, In i nd -> (i < length Y)%nat) ->
  (forall i, In i nd -> ~ exists j, (j < length Y)%nat /\ dominates (row Y j) (row Y i)) ->
  dims_any Y ref -> dims_ok argsort (gather [] Y nd) ref.
Proof.
  intros Hnd Hran Hndm Hdims.
  assert (Hl : length (gather [] Y nd) = length nd) by (unfold gather; apply map_length).
  destruct Hdims as [H4|[[G1 G2]|(H5 & Hst & G2)]]; [left; auto|right; left|right; right].
  2:{ split; auto. split; auto. split.
      - intros i k Hi Hk. rewrite Hl in Hi. rewrite gather_coord by auto. apply G2; auto. apply Hran, nth_In; auto.
      - left. intros i j Hi Hj Hdom. rewrite Hl in Hi, Hj. rewrite !gather_nth in Hdom by auto.
        apply (Hndm (nth i nd 0%nat)); [apply nth_In; auto|]. exists (nth j nd 0%nat). split; auto. apply Hran, nth_In; auto. }
  split.
  - intros i k Hi Hk j Hj Hne. rewrite Hl in Hi, Hj. rewrite !gather_coord by auto.
    apply G1; auto; try (apply Hran, nth_In; auto). intros E. apply Hne. apply (proj1 (NoDup_nth nd 0%nat) Hnd); auto.
  - intros i k Hi Hk. rewrite Hl in Hi. rewrite gather_coord by auto. apply G2; auto. apply Hran, nth_In; auto.
Qed.

Lemma whole_gradient Y ref : Y <> [] -> rows_ok Y ref -> (2 <= length ref)%nat -> above_all minf Y ref -> dims_any Y ref ->
  (length ref = 2%nat -> inside Y ref) ->
  exists g, compute_HVdY minf argsort (length ref) Y ref = Ok g /\ shape (length Y) (length ref) g /\
    forall i, (i < length Y)%nat ->
      ((exists j, (j < length Y)%nat /\ dominates (row Y j) (row Y i)) -> nth i g [] = repeat 0 (length ref)) /\
      forall k, (k < length ref)%nat -> no_tie Y i k -> coord g i k = gradf Y ref i k.
Proof.
  intros HY Hr H2 Hab Hdim Hin2. unfold compute_HVdY. rewrite forallb_rows by auto. cbn [negb].
  destruct (nondominated_spec Y (length ref) HY ltac:(lia) Hr) as (nd & E & N1 & N2 & N3 & N4 & N5). rewrite E. cbn [bind].
  set (F := gather [] Y nd).
  assert (HlF : length F = length nd) by (unfold F, gather; apply map_length).
  destruct (dY_correct F ref) as (g & Eg & [Hs1 Hs2] & Hg); auto.
  - apply nd_rows; auto.
  - intros i k Hi Hk. rewrite HlF in Hi. unfold F. rewrite gather_coord by auto. apply Hab; auto. apply N2, nth_In; auto.
  - apply nd_dims; auto.
  - intros E2. split.
    + intros a b Ha' Hb Hgt. rewrite HlF in Ha', Hb. unfold F in *. rewrite gather_coord in Hgt |- * by auto.
      rewrite gather_coord in Hgt |- * by auto. set (i := nth a nd 0%nat) in *. set (j := nth b nd 0%nat) in *.
      assert (Hi : (i < length Y)%nat) by (apply N2, nth_In; auto).
      assert (Hj : (j < length Y)%nat) by (apply N2, nth_In; auto).
      destruct (Rle_dec (coord Y i 0) (coord Y j 0)); auto. exfalso.
      apply (N4 i); [apply nth_In; auto|]. exists j. split; auto.
      pose proof (Hr (nth i Y []) ltac:(apply nth_In; auto)). pose proof (Hr (nth j Y []) ltac:(apply nth_In; auto)).
      unfold row. split; [congruence|]. split.
      * intros [|[|k]] Hk; try lia; unfold coord in *; lra.
      * exists 0%nat. split; [lia|]. unfold coord in *; lra.
    + intros a l Ha' Hl. rewrite HlF in Ha'. unfold F. rewrite gather_coord by auto. apply Rlt_le, Hin2; auto; try lia.
      apply N2, nth_In; auto.
  - rewrite Eg. cbn [bind]. eexists; split; [reflexivity|]. rewrite HlF in *.
    assert (Hnth : forall i, (i < length Y)%nat -> nth i (map (fun i => scatter (repeat nzero (length ref)) nd g i) (seq 0 (length Y))) [] = scatter (repeat 0 (length ref)) nd g i).
    { intros i Hi. match goal with |- nth _ (map ?f _) _ = _ => rewrite (nth_indep _ [] (f 0%nat)) by (rewrite map_length, seq_length; auto); rewrite (map_nth f) end.
      rewrite seq_nth by auto. reflexivity. }
    split.
    + split; [rewrite map_length, seq_length; auto|]. intros r Hr'. apply in_map_iff in Hr' as (i & <- & Hi).
      destruct (in_dec Nat.eq_dec i nd) as [Hin|Hnin].
      * apply In_nth with (d := 0%nat) in Hin as (s & Hs & <-). rewrite scatter_nth by auto. apply Hs2. apply nth_In. lia.
      * rewrite scatter_out by auto. apply repeat_length.
    + intros i Hi. split.
      * intros Hd. rewrite Hnth by auto. apply scatter_out. intros Hc. apply (N4 i Hc). exact Hd.
      * intros k Hk Hnt. unfold coord at 1. rewrite Hnth by auto.
        destruct (in_dec Nat.eq_dec i nd) as [Hin|Hnin].
        -- apply In_nth with (d := 0%nat) in Hin as (s & Hs & Es). rewrite <- Es. rewrite scatter_nth by auto.
           rewrite (nth_indep g _ []) by lia. change (nth k (nth s g []) 0) with (coord g s k).
           rewrite Hg; auto; [apply gradf_nd; auto|].
           intros _ t Ht Hne. rewrite HlF in Ht. unfold F. rewrite !gather_coord by auto. rewrite Es.
           apply Hnt; [apply N2, nth_In; auto|]. intros Ec. apply Hne. apply (proj1 (NoDup_nth nd 0%nat) N1); auto. congruence.
        -- rewrite scatter_out by auto. destruct (N3 i Hi) as (j & Hj & Hw).
           assert (Hji : j <> i) by (intros ->; auto).
           rewrite (gradf_dominated Y ref i j k) by (auto; apply Hnt; auto). apply nth_repeat_z.
Qed.

End Code.

Lemma hvs_nonneg d (r : pt) (P : list pt) (c : pt) : 0 <= hvs d r P c.
Proof. pose proof (hvs_incl d r [] P c ltac:(intros p [])) as Hh. exact Hh. Qed.

(** * Points outside the reference box *)
Lemma outside_flat F ref i k : rows_ok F ref -> (i < length F)%nat -> (k < length ref)%nat ->
  nth k ref 0 < coord F i k -> is_slope F ref i k 0.
Proof.
  intros Hr Hi Hk Hout. destruct (length ref) as [|d] eqn:Hd; [lia|].
  destruct (HV_split F ref i k d Hr Hi Hd ltac:(lia)) as (P & c & H1 & H2 & _).
  assert (Hz : forall q : pt, nth k ref 0 <= q k -> exc (S d) (co ref) P q = 0).
  { intros q Hq. pose proof (exc_nonneg (S d) (co ref) P q) as Hge. unfold exc in *.
    rewrite (box_drop d (co ref) q k) in * by lia. rewrite Rmax_left in * by (unfold co; lra).
    pose proof (hvs_nonneg (S d) (co ref) P q). lra. }
  exists (coord F i k - nth k ref 0). split; [lra|]. intros t v w Ht Hv Hw.
  apply is_hv_iff in Hv; auto. apply is_hv_iff in Hw; [|apply rows_set_coord; auto].
  subst. rewrite H1, H2, !Hz; [ring| |].
  - exact (Rlt_le _ _ Hout).
  - unfold setk. rewrite Nat.eqb_refl. lra.
Qed.

Lemma gradf_outside F ref i k l : (k < length ref)%nat -> (l < length ref)%nat -> l <> k -> nth l ref 0 <= coord F i l ->
  gradf F ref i k = 0.
Proof.
  intros Hk Hl Hne Hout. unfold gradf. unfold slope_lt.
  match goal with |- - exc ?d ?r ?P ?q = 0 => set (P0 := P); pose proof (exc_nonneg d r P0 q) as Hge; pose proof (hvs_nonneg d r P0 q) end.
  assert (Hb : box (length ref - 1) (drop k (co ref)) (drop k (co (nth i F []))) = 0).
  { destruct (length ref) as [|[|d]] eqn:Hd; try lia. replace (S (S d) - 1)%nat with (S d) by lia.
    set (l' := if (l <? k)%nat then l else (l - 1)%nat).
    rewrite (box_drop d _ _ l') by (unfold l'; destruct (Nat.ltb_spec l k); lia).
    replace (drop k (co ref) l') with (nth l ref 0); [replace (drop k (co (nth i F [])) l') with (coord F i l)|].
    - rewrite Rmax_left by lra. ring.
    - unfold drop, l', coord, co. destruct (Nat.ltb_spec l k).
      + destruct (Nat.ltb_spec l k); [auto|lia].
      + destruct (Nat.ltb_spec (l - 1) k); [lia|]. f_equal. lia.
    - unfold drop, l', coord, co. destruct (Nat.ltb_spec l k).
      + destruct (Nat.ltb_spec l k); [auto|lia].
      + destruct (Nat.ltb_spec (l - 1) k); [lia|]. f_equal. lia. }
  unfold exc in *. rewrite Hb in *. lra.
Qed.
