(** C168, C169: the hypervolume computed with IEEE doubles. *)
From Coq Require Import ZArith Reals Lra List Arith Lia Bool Permutation Sorting.Sorted.
From Flocq Require Import Core IEEE754.BinarySingleNaN.
From Verif Require Import Num Exn ListAux NDSSpec HVSpec HVModel HVTop HVHom HVScale DblModel DblSpec DblNDS DblSim DblTop DblRel DblExact DblErr.
Import ListNotations.
Open Scope nat_scope.

(** the stable sort satisfies what is assumed of [np.argsort] *)
Lemma dins_val l i acc : no_nan l -> i < length l -> Forall (fun j => j < length l) acc ->
  ins_idx l i acc = ins_idx (map dval l) i acc /\ Forall (fun j => j < length l) (ins_idx l i acc).
Proof.
  intros Hn Hi Ha. induction Ha as [|j acc Hj Ha IH]; cbn [ins_idx]; [auto|].
  assert (E : nleb (nth i l nzero) (nth j l nzero) = nleb (nth i (map dval l) nzero) (nth j (map dval l) nzero)).
  { rewrite !(nth_map_default dval l _ nzero nzero) by auto. unfold nleb. f_equal.
    unfold nltb, NumD, NumR. rewrite dval_ltb by (apply Hn, nth_In; auto). reflexivity. }
  rewrite <- E. destruct (nleb _ _); [auto|]. destruct IH as [<- I2]. auto.
Qed.
Lemma dstable_val l : no_nan l -> stable_argsort l = stable_argsort (map dval l).
Proof.
  intros Hn. unfold stable_argsort. rewrite map_length.
  assert (H : forall s, Forall (fun j => j < length l) s ->
    fold_right (ins_idx l) [] s = fold_right (ins_idx (map dval l)) [] s /\ Forall (fun j => j < length l) (fold_right (ins_idx l) [] s)).
  { induction 1 as [|j s Hj Hs [IH1 IH2]]; simpl; [auto|]. rewrite <- IH1. apply dins_val; auto. }
  apply H, Forall_forall. intros j Hj. apply in_seq in Hj. lia.
Qed.
Lemma Bleb_dval x y : isnan x = false -> isnan y = false -> (Bleb x y = true <-> (dval x <= dval y)%R).
Proof. intros Hx Hy. rewrite dval_leb by auto. change (negb (Rltb (dval y) (dval x))) with (nleb (dval x) (dval y)). destruct (nleb_spec (dval x) (dval y)); split; auto; discriminate || lra. Qed.
Theorem dstable_ok : dargsort_ok stable_argsort.
Proof.
  assert (HN : forall l i, no_nan l -> isnan (nth i l d0) = false).
  { intros l i Hl. destruct (nth_in_or_default i l d0) as [H|H]; [auto|]. rewrite H. reflexivity. }
  assert (HV : forall l i, nth i (map dval l) 0%R = dval (nth i l d0)).
  { intros l i. rewrite <- (map_nth dval). f_equal. }
  split.
  - intros l Hl. rewrite dstable_val by auto. destruct (stable_argsort_ok (map dval l)) as [H1 H2].
    rewrite map_length in H1. split; [exact H1|]. revert H2. apply StronglySorted_impl. intros a b _ _ H.
    apply Bleb_dval; auto. rewrite <- !HV. exact H.
  - intros l l' Hl Hl' Hlen Hc. rewrite !dstable_val by auto. apply stable_order_determined; [rewrite !map_length; auto|].
    rewrite map_length. intros i j Hi Hj. rewrite !HV, <- !Bleb_dval by auto. rewrite Hc by auto. reflexivity.
Qed.

Lemma sentinel_val : is_finite minus_1e308 = true /\ (B2R minus_1e308 < - bpow radix2 1023)%R.
Proof.
  assert (E : exists m, B2SF minus_1e308 = SpecFloat.S754_finite true m 971 /\ (2 ^ 52 < Zpos m)%Z).
  { eexists. split; [vm_compute; reflexivity|]. reflexivity. }
  destruct E as (m & E & Hm). split.
  - destruct minus_1e308; try discriminate. reflexivity.
  - rewrite <- SF2R_B2SF, E. cbn [SF2R]. unfold F2R; cbn [Fnum Fexp]. change 1023%Z with (52 + 971)%Z. rewrite (bpow_plus radix2 52).
    assert (H : (bpow radix2 52 < IZR (Zpos m))%R) by (change (bpow radix2 52) with (IZR (2 ^ 52)); apply IZR_lt; exact Hm).
    replace (IZR (SpecFloat.cond_Zopp true (Z.pos m))) with (- IZR (Zpos m))%R by reflexivity.
    pose proof (bpow_gt_0 radix2 971) as Hb. revert H Hb. generalize (bpow radix2 52) (bpow radix2 971) (IZR (Zpos m)). intros; nra.
Qed.

(** literals *)
Lemma dbl_val m e : (Z.abs m <= 2 ^ 53)%Z -> (-1074 <= e <= 970)%Z ->
  is_finite (dbl m e) = true /\ B2R (dbl m e) = (IZR m * bpow radix2 e)%R.
Proof.
  intros Hm He. destruct (grid_fit e m He Hm) as [G1 G2].
  pose proof (binary_normalize_correct 53 1024 _ _ mode_NE m e false) as H. cbv zeta in H. simpl round_mode in H.
  unfold F2R in H. cbn [Fnum Fexp] in H. rewrite round_generic in H by (auto; apply valid_rnd_N).
  rewrite Rlt_bool_true in H by exact G2. unfold dbl. tauto.
Qed.
Lemma dbl_grid m e : (Z.abs m <= 2 ^ 53)%Z -> (-1074 <= e <= 970)%Z -> on_grid e (dbl m e).
Proof. intros Hm He. destruct (dbl_val m e Hm He) as [H1 H2]. split; auto. exists m. auto. Qed.
Lemma dbl_moderate m e : (1 <= Z.abs m <= 2 ^ 53)%Z -> (-250 <= e <= 197)%Z -> moderate (dbl m e).
Proof.
  intros Hm He. destruct (dbl_val m e) as [H1 H2]; [lia|lia|]. split; auto. right. rewrite H2, Rabs_mult.
  rewrite (Rabs_pos_eq (bpow radix2 e)) by apply bpow_ge_0. rewrite <- abs_IZR. split.
  - apply Rle_trans with (1 * bpow radix2 e)%R; [rewrite Rmult_1_l; apply bpow_le; lia|].
    apply Rmult_le_compat_r; [apply bpow_ge_0|]. apply IZR_le; lia.
  - change 250%Z with (53 + 197)%Z. rewrite bpow_plus.
    apply Rmult_le_compat; [apply IZR_le; lia|apply bpow_ge_0| |apply bpow_le; lia].
    change (bpow radix2 53) with (IZR (2 ^ 53)). apply IZR_le. lia.
Qed.

(** * C168: on a dyadic grid nothing is rounded *)
Theorem C168_exact_on_grid : forall argsort (front : list (list double)) (ref : list double) (e W : Z),
  dargsort_ok argsort -> 1 <= length ref <= 3 ->
  (forall p, In p front -> length p = length ref) ->
  (forall p x, In p front -> In x p -> on_grid e x) -> (forall x, In x ref -> on_grid e x) ->
  (forall p k, In p front -> weakly_dominates (dvec p) (dvec ref) -> k < length ref ->
     (nth k (dvec ref) 0 - nth k (dvec p) 0 <= IZR W * bpow radix2 e)%R) ->
  (0 <= W)%Z -> (W ^ Z.of_nat (length ref) <= 2 ^ 53)%Z ->
  (-1074 <= Z.of_nat (length ref) * e <= 970)%Z ->
  exists v, hypervolume minus_1e308 argsort front ref = Ok v /\ is_finite v = true /\
    is_hypervolume (dmat front) (dvec ref) (B2R v).
Proof.
  intros argsort front ref e W H1 H2 H3 H4 H5 H6 H7 H8 H9. destruct sentinel_val as [S1 S2].
  destruct (exact_main minus_1e308 argsort front ref e W) as (v & V1 & V2 & V3 & _); auto; [| | | |exists v; auto].
  - intros p x Hp Hx. destruct (H4 p x Hp Hx) as (F & z & E). exists z. split; auto.
  - intros x Hx. destruct (H5 x Hx) as (F & z & E). exists z. split; auto.
  - intros p k Hp Hw Hk. specialize (H6 p k Hp Hw Hk). unfold dvec in H6. rewrite !nth_dR in H6. exact H6.
  - eapply Rlt_le_trans; [exact S2|]. apply Ropp_le_contravar.
    destruct (W53 ref e W) as [HW He]; auto.
    change 1023%Z with (53 + 970)%Z. rewrite bpow_plus.
    apply Rmult_le_compat; [apply IZR_le; lia|apply bpow_ge_0| |apply bpow_le; lia].
    change (bpow radix2 53) with (IZR (2 ^ 53)). apply IZR_le. lia.
Qed.
Print Assumptions C168_exact_on_grid.

(** whole numbers: up to 94906265 below the reference in two objectives and up to 208063
    below it in three *)
Theorem C168_integers : forall argsort (front : list (list double)) (ref : list double) (W : Z),
  dargsort_ok argsort -> 1 <= length ref <= 3 ->
  (forall p, In p front -> length p = length ref) ->
  (forall p x, In p front -> In x p -> on_grid 0 x) -> (forall x, In x ref -> on_grid 0 x) ->
  (forall p k, In p front -> weakly_dominates (dvec p) (dvec ref) -> k < length ref ->
     (nth k (dvec ref) 0 - nth k (dvec p) 0 <= IZR W)%R) ->
  (0 <= W <= match length ref with 1%nat => 2 ^ 53 | 2%nat => 94906265 | _ => 208063 end)%Z ->
  exists v, hypervolume minus_1e308 argsort front ref = Ok v /\ is_finite v = true /\
    is_hypervolume (dmat front) (dvec ref) (B2R v).
Proof.
  intros argsort front ref W H1 H2 H3 H4 H5 H6 H7.
  apply (C168_exact_on_grid argsort front ref 0 W); auto; [|lia| |lia].
  - intros p k Hp Hw Hk. simpl (bpow radix2 0). rewrite Rmult_1_r. auto.
  - destruct (length ref) as [|[|[|[|?]]]]; [lia| | | |lia]; (eapply Z.le_trans; [apply Z.pow_le_mono_l; exact H7|vm_compute; discriminate]).
Qed.
Print Assumptions C168_integers.

(** three mutually non-dominated points of whole numbers, and one beyond the reference:
    the computed double is the volume 6 *)
#[local] Opaque dbl.
Example C168_example :
  exists v, hypervolume minus_1e308 stable_argsort
    [[dbl 1 0; dbl 3 0]; [dbl 3 0; dbl 1 0]; [dbl 2 0; dbl 2 0]; [dbl 5 0; dbl 0 0]] [dbl 4 0; dbl 4 0] = Ok v /\
    is_finite v = true /\ B2R v = 6%R /\
    is_hypervolume (dmat [[dbl 1 0; dbl 3 0]; [dbl 3 0; dbl 1 0]; [dbl 2 0; dbl 2 0]; [dbl 5 0; dbl 0 0]])
      (dvec [dbl 4 0; dbl 4 0]) (B2R v).
Proof.
  set (F := [[dbl 1 0; dbl 3 0]; [dbl 3 0; dbl 1 0]; [dbl 2 0; dbl 2 0]; [dbl 5 0; dbl 0 0]]). set (r := [dbl 4 0; dbl 4 0]).
  assert (V : forall z, (Z.abs z <= 2 ^ 53)%Z -> B2R (dbl z 0) = IZR z).
  { intros z Hz. destruct (dbl_val z 0 Hz) as [_ ->]; [lia|]. simpl. ring. }
  destruct (C168_integers stable_argsort F r 4) as (v & E & Hf & Hv).
  - exact dstable_ok.
  - simpl; lia.
  - intros p Hp. simpl in Hp. destruct Hp as [<-|[<-|[<-|[<-|[]]]]]; reflexivity.
  - intros p x Hp Hx. simpl in Hp. destruct Hp as [<-|[<-|[<-|[<-|[]]]]]; simpl in Hx; destruct Hx as [<-|[<-|[]]]; apply dbl_grid; lia.
  - intros x Hx. simpl in Hx. destruct Hx as [<-|[<-|[]]]; apply dbl_grid; lia.
  - intros p k Hp _ Hk. simpl in Hp, Hk. unfold r, dvec. cbn [map].
    destruct Hp as [<-|[<-|[<-|[<-|[]]]]]; destruct k as [|[|k]]; try lia; cbn [map nth]; rewrite !V by lia; lra.
  - simpl. lia.
  - exists v. split; [exact E|]. split; [exact Hf|]. split; [|exact Hv].
    assert (Hb : match hypervolume minus_1e308 stable_argsort F r with Ok v => B2SF v | _ => SpecFloat.S754_nan end
       = SpecFloat.S754_finite false 6755399441055744 (-50)) by (vm_compute; reflexivity).
    rewrite E in Hb. rewrite <- SF2R_B2SF, Hb. cbn [SF2R]. unfold F2R; cbn [Fnum Fexp]. simpl. lra.
Qed.

(** the doubles nearest to -0.1, -0.3 and -0.4 *)
Definition m01 : double := dbl (-3602879701896397) (-55).
Definition m03 : double := dbl (-5404319552844595) (-54).
Definition m04 : double := dbl (-3602879701896397) (-53).

(** * C169: the relative error in general *)
Theorem C169_relative_error : forall argsort (front : list (list double)) (ref : list double),
  dargsort_ok argsort -> 1 <= length ref <= 3 ->
  (forall p, In p front -> length p = length ref) ->
  (forall p x, In p front -> In x p -> moderate x) -> (forall x, In x ref -> moderate x) ->
  (INR (length front) <= bpow radix2 50)%R ->
  exists v, hypervolume minus_1e308 argsort front ref = Ok v /\ is_finite v = true /\
    forall w, is_hypervolume (dmat front) (dvec ref) w ->
      (Rabs (B2R v - w) <= (2 * INR (length front) + 8) * bpow radix2 (-52) * w)%R.
Proof.
  intros argsort front ref H1 H2 H3 H4 H5 H6. destruct sentinel_val as [S1 S2].
  destruct (err_main minus_1e308 argsort front ref) as (v & E & F & H); auto.
  { eapply Rlt_trans; [exact S2|]. apply Ropp_lt_contravar, bpow_lt. lia. }
  exists v. split; [exact E|]. split; [exact F|]. intros w Hw. specialize (H w Hw).
  assert (W0 : (0 <= w)%R).
  { apply HVExtra.is_hv_iff in Hw; [rewrite Hw; apply HVTheory.hv_nonneg|].
    intros p Hp. apply in_map_iff in Hp as (q & <- & Hq). unfold dvec. rewrite !map_length. auto. }
  assert (Hs := small (length front) H6 (2 * length front + 8) (le_n _)).
  pose proof (pow_hi_lin _ Hs) as U. pose proof (bern (2 * length front + 8)) as L.
  assert (EJ : INR (2 * length front + 8) = (2 * INR (length front) + 8)%R)
    by (rewrite plus_INR, mult_INR; simpl (INR 2); simpl (INR 8); lra).
  rewrite EJ in U, L. set (J := (2 * INR (length front) + 8)%R) in *.
  assert (J0 : (0 <= J)%R) by (unfold J; pose proof (pos_INR (length front)); lra).
  replace (bpow radix2 (-52)) with (2 * uu)%R by (unfold uu; change 2%R with (bpow radix2 1); rewrite <- bpow_plus; reflexivity).
  pose proof uu_pos. destruct H as [Hl Hu].
  assert (Ju : (0 <= J * uu)%R) by nra.
  apply Rcomplements.Rabs_le_between. split.
  - assert (((1 - J * uu) * w <= B2R v)%R) by (eapply Rle_trans; [|exact Hl]; apply Rmult_le_compat_r; auto).
    assert (0 <= J * uu * w)%R by (apply Rmult_le_pos; auto). lra.
  - assert ((B2R v <= (1 + 2 * (J * uu)) * w)%R) by (eapply Rle_trans; [exact Hu|]; apply Rmult_le_compat_r; auto). lra.
Qed.
Print Assumptions C169_relative_error.

(** decimal data, which are not on a coarse grid: the computed double is within
    16 * 2^-52 of the area 0.05 (up to the rounding of the data) *)
Example C169_example :
  exists v, hypervolume minus_1e308 stable_argsort [[m01; m04]; [m04; m01]; [m03; m03]; [m03; m01]] [d0; d0] = Ok v /\
    is_finite v = true /\
    forall w, is_hypervolume (dmat [[m01; m04]; [m04; m01]; [m03; m03]; [m03; m01]]) (dvec [d0; d0]) w ->
      (Rabs (B2R v - w) <= 16 * bpow radix2 (-52) * w)%R.
Proof.
  destruct (C169_relative_error stable_argsort [[m01; m04]; [m04; m01]; [m03; m03]; [m03; m01]] [d0; d0]) as (v & E & Hf & Hv).
  - exact dstable_ok.
  - simpl; lia.
  - intros p Hp. simpl in Hp. destruct Hp as [<-|[<-|[<-|[<-|[]]]]]; reflexivity.
  - intros p x Hp Hx. simpl in Hp. destruct Hp as [<-|[<-|[<-|[<-|[]]]]]; simpl in Hx; destruct Hx as [<-|[<-|[]]];
      apply dbl_moderate; vm_compute; split; discriminate.
  - intros x Hx. simpl in Hx. destruct Hx as [<-|[<-|[]]]; (split; [reflexivity|left; reflexivity]).
  - simpl. lra.
  - exists v. split; [exact E|]. split; [exact Hf|]. intros w Hw. specialize (Hv w Hw).
    simpl length in Hv. replace (2 * INR 4 + 8)%R with 16%R in Hv by (simpl; lra). exact Hv.
Qed.

(** * What rounding does break *)
(** Adding a point never lowers the volume, but it can lower the computed double: the point
    (-0.1, -0.3) is dominated by (-0.1, -0.4). *)
Definition lower (a b : res double) : bool := match a, b with Ok v, Ok w => Bltb w v | _, _ => false end.
Lemma both_ok (a b : res double) : lower a b = true -> exists v w, a = Ok v /\ b = Ok w /\ Bltb w v = true.
Proof. destruct a as [v|], b as [w|]; try discriminate. intros H. exists v, w. auto. Qed.
Definition runF (F : list (list double)) : res double := hypervolume minus_1e308 stable_argsort F [d0; d0].
Lemma mono_run : lower (runF [[m01; m04]]) (runF [[m01; m03]; [m01; m04]]) = true.
Proof. vm_compute. reflexivity. Qed.
Theorem C169_monotone_refuted : exists (front : list (list double)) x ref v w,
  (forall p k, In p (x :: front) -> In k p -> moderate k) /\ ddominates (drow front 0) x /\
  hypervolume minus_1e308 stable_argsort front ref = Ok v /\
  hypervolume minus_1e308 stable_argsort (x :: front) ref = Ok w /\
  Bltb w v = true.
Proof.
  destruct (both_ok _ _ mono_run) as (v & w & E1 & E2 & H).
  exists [[m01; m04]], [m01; m03], [d0; d0], v, w. split; [|split; [|split; [exact E1|split; [exact E2|exact H]]]].
  - intros p k [<-|[<-|[]]] Hk; simpl in Hk; destruct Hk as [<-|[<-|[]]]; apply dbl_moderate; vm_compute; split; discriminate.
  - split; [reflexivity|]. split.
    + intros [|[|k]] Hk; [vm_compute; reflexivity|vm_compute; reflexivity|simpl in Hk; lia].
    + exists 1. split; [simpl; lia|vm_compute; reflexivity].
Qed.
Print Assumptions C169_monotone_refuted.
