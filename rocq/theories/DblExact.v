(** The hypervolume of doubles on a dyadic grid is computed without any rounding error. *)
From Coq Require Import ZArith Reals Lra List Arith Lia Bool Permutation Sorted FunctionalExtensionality.
From Flocq Require Import Core IEEE754.BinarySingleNaN.
From Verif Require Import Num Exn ListAux NDSSpec HVSpec HVModel HVTheory HVLinks HVProof HVTop HVHom HVExtra DblModel DblSpec DblNDS DblSim DblTop DblRel.
Import ListNotations.
Open Scope nat_scope.

Lemma grid_fit f z : (-1074 <= f <= 970)%Z -> (Z.abs z <= 2 ^ 53)%Z ->
  fmt (IZR z * bpow radix2 f) /\ (Rabs (IZR z * bpow radix2 f) < bpow radix2 1024)%R.
Proof.
  intros Hf Hz. split.
  - change (SpecFloat.fexp 53 1024) with (FLT_exp (-1074) 53). apply generic_format_FLT.
    destruct (Z.eq_dec (Z.abs z) (2 ^ 53)) as [E|E].
    + exists (Float radix2 (z / 2 ^ 53) (f + 53)).
      * unfold F2R; cbn [Fnum Fexp]. rewrite bpow_plus.
        assert (Ez : (z = (z / 2 ^ 53) * 2 ^ 53)%Z) by (destruct (Z.abs_eq_or_opp z) as [H|H]; rewrite H in E; [rewrite E|replace z with (- 2 ^ 53)%Z by lia]; reflexivity).
        assert (Er : IZR z = (IZR (z / 2 ^ 53) * bpow radix2 53)%R) by (rewrite Ez at 1; rewrite mult_IZR; reflexivity).
        rewrite Er at 1. generalize (IZR (z / 2 ^ 53)) (bpow radix2 53) (bpow radix2 f). intros; ring.
      * cbn [Fnum]. destruct (Z.abs_eq_or_opp z) as [H|H]; rewrite H in E; [rewrite E|replace z with (- 2 ^ 53)%Z by lia]; reflexivity.
      * simpl Fexp. lia.
    + exists (Float radix2 z f); [reflexivity|simpl; lia|simpl; lia].
  - rewrite Rabs_mult, (Rabs_pos_eq (bpow radix2 f)) by apply bpow_ge_0. rewrite <- abs_IZR.
    apply Rle_lt_trans with (IZR (2 ^ 53) * bpow radix2 f)%R.
    + apply Rmult_le_compat_r; [apply bpow_ge_0|]. apply IZR_le; auto.
    + change (IZR (2 ^ 53)) with (bpow radix2 53). rewrite <- bpow_plus. apply bpow_lt. lia.
Qed.
Lemma grid_rnd f z : (-1074 <= f <= 970)%Z -> (Z.abs z <= 2 ^ 53)%Z -> rnd (IZR z * bpow radix2 f) = (IZR z * bpow radix2 f)%R.
Proof. intros Hf Hz. apply round_generic; [apply valid_rnd_N|]. apply grid_fit; auto. Qed.

Definition gv (f z : Z) (x : double) : Prop := is_finite x = true /\ B2R x = (IZR z * bpow radix2 f)%R.
Lemma gv_plus f x y zx zy : (-1074 <= f <= 970)%Z -> gv f zx x -> gv f zy y -> (Z.abs (zx + zy) <= 2 ^ 53)%Z -> gv f (zx + zy) (nadd x y).
Proof.
  intros Hf [X1 X2] [Y1 Y2] Hz. destruct (grid_fit f _ Hf Hz) as [G1 G2].
  assert (E : (B2R x + B2R y = IZR (zx + zy) * bpow radix2 f)%R) by (rewrite X2, Y2, plus_IZR; ring).
  destruct (dplus_ok x y X1 Y1) as [P1 P2]; [rewrite E, grid_rnd; auto|]. split; auto. rewrite P2, E. apply grid_rnd; auto.
Qed.
Lemma gv_minus f x y zx zy : (-1074 <= f <= 970)%Z -> gv f zx x -> gv f zy y -> (Z.abs (zx - zy) <= 2 ^ 53)%Z -> gv f (zx - zy) (nsub x y).
Proof.
  intros Hf [X1 X2] [Y1 Y2] Hz. destruct (grid_fit f _ Hf Hz) as [G1 G2].
  assert (E : (B2R x - B2R y = IZR (zx - zy) * bpow radix2 f)%R) by (rewrite X2, Y2, minus_IZR; ring).
  destruct (dminus_ok x y X1 Y1) as [P1 P2]; [rewrite E, grid_rnd; auto|]. split; auto. rewrite P2, E. apply grid_rnd; auto.
Qed.
Lemma gv_mult f g x y zx zy : (-1074 <= f + g <= 970)%Z -> gv f zx x -> gv g zy y -> (Z.abs (zx * zy) <= 2 ^ 53)%Z -> gv (f + g) (zx * zy) (nmul x y).
Proof.
  intros Hf [X1 X2] [Y1 Y2] Hz. destruct (grid_fit _ _ Hf Hz) as [G1 G2].
  assert (E : (B2R x * B2R y = IZR (zx * zy) * bpow radix2 (f + g))%R) by (rewrite X2, Y2, mult_IZR, bpow_plus; ring).
  destruct (dmult_ok x y X1 Y1) as [P1 P2]; [rewrite E, grid_rnd; auto|]. split; auto. rewrite P2, E. apply grid_rnd; auto.
Qed.
Lemma gle f z z' : (IZR z * bpow radix2 f <= IZR z' * bpow radix2 f)%R <-> (z <= z')%Z.
Proof.
  pose proof (bpow_gt_0 radix2 f). split; intros H'.
  - apply le_IZR. nra.
  - apply IZR_le in H'. nra.
Qed.

Section Ex.
Variables (e W : Z).
Definition KG (x : double) : Prop := exists z, gv e z x /\ (- W <= z <= 0)%Z.
Definition AG (k : nat) (v : double) (v' : R) : Prop :=
  exists z, v' = (IZR z * bpow radix2 (e + e))%R /\ (0 <= z)%Z /\ ((z <= W * W)%Z -> gv (e + e) z v).
Definition BG (k : nat) (v : double) (v' : R) : Prop :=
  exists z, v' = (IZR z * bpow radix2 (e + e + e))%R /\ (0 <= z)%Z /\ ((z <= W * W * W)%Z -> gv (e + e + e) z v).

Hypothesis HW : (0 <= W <= 2 ^ 53)%Z.
Hypothesis He : (-1074 <= e <= 970)%Z.

Lemma gv_zero f : gv f 0 d0.
Proof. split; [reflexivity|]. simpl. ring. Qed.
Lemma KG_f x : KG x -> is_finite x = true.
Proof. intros (z & [H _] & _). exact H. Qed.
Lemma KG_n x : KG x -> (B2R x <= 0)%R.
Proof. intros (z & [_ ->] & H). replace 0%R with (IZR 0 * bpow radix2 e)%R by ring. apply gle. lia. Qed.
Lemma KG_W x : KG x -> (- (IZR W * bpow radix2 e) <= B2R x)%R.
Proof. intros (z & [_ ->] & H). replace (- (IZR W * bpow radix2 e))%R with (IZR (- W) * bpow radix2 e)%R by (rewrite opp_IZR; ring). apply gle. lia. Qed.

Section L1.
Hypothesis HW2 : (W * W <= 2 ^ 53)%Z.
Hypothesis He2 : (-1074 <= e + e <= 970)%Z.
Lemma AG_0 : AG 0 d0 0%R.
Proof. exists 0%Z. split; [ring|]. split; [lia|]. intros _. apply gv_zero. Qed.
Lemma AG_mono k v v' : AG k v v' -> AG (S k) v v'.
Proof. auto. Qed.
Lemma AG_step k v v' h q p : AG k v v' -> KG h -> KG q -> KG p -> (B2R q <= B2R p)%R ->
  AG (S k) (nadd v (nmul h (nsub q p))) (v' + B2R h * (B2R q - B2R p))%R.
Proof.
  intros (z & -> & Hz & Hv) (zh & Gh & Hh) (zq & Gq & Hq) (zp & Gp & Hp) Hle.
  assert (Hqp : (zq <= zp)%Z) by (rewrite (proj2 Gq), (proj2 Gp) in Hle; apply gle in Hle; auto).
  exists (z + zh * (zq - zp))%Z. split.
  { destruct Gh as [_ ->], Gq as [_ ->], Gp as [_ ->]. rewrite plus_IZR, mult_IZR, minus_IZR, bpow_plus. ring. }
  assert (Hm : (0 <= zh * (zq - zp))%Z) by nia.
  split; [lia|]. intros Hb. apply gv_plus; auto; [apply Hv; lia| |lia].
  apply gv_mult; auto; [|lia]. apply gv_minus; auto. lia.
Qed.
Lemma AG_last k v v' h q : AG k v v' -> KG h -> KG q ->
  AG (S k) (nadd v (nmul h q)) (v' + B2R h * B2R q)%R.
Proof.
  intros (z & -> & Hz & Hv) (zh & Gh & Hh) (zq & Gq & Hq).
  exists (z + zh * zq)%Z. split.
  { destruct Gh as [_ ->], Gq as [_ ->]. rewrite plus_IZR, mult_IZR, bpow_plus. ring. }
  assert (Hm : (0 <= zh * zq)%Z) by nia.
  split; [lia|]. intros Hb. apply gv_plus; auto; [apply Hv; lia| |lia].
  apply gv_mult; auto. lia.
Qed.
End L1.

Section L2.
Hypothesis HW3 : (W * W * W <= 2 ^ 53)%Z.
Hypothesis He3 : (-1074 <= e + e + e <= 970)%Z.
Lemma AG_area k a a' : AG k a a' -> (a' <= (IZR W * bpow radix2 e) * (IZR W * bpow radix2 e))%R ->
  exists z, gv (e + e) z a /\ a' = (IZR z * bpow radix2 (e + e))%R /\ (0 <= z)%Z.
Proof.
  intros (z & -> & Hz & Hv) Hle. exists z. split; [|auto]. apply Hv.
  replace (IZR W * bpow radix2 e * (IZR W * bpow radix2 e))%R with (IZR (W * W) * bpow radix2 (e + e))%R in Hle
    by (rewrite mult_IZR, bpow_plus; ring). apply gle in Hle. exact Hle.
Qed.
Lemma BG_0 : BG 0 d0 0%R.
Proof. exists 0%Z. split; [ring|]. split; [lia|]. intros _. apply gv_zero. Qed.
Lemma BG_step k l v v' a a' q p : BG k v v' -> AG l a a' -> (a' <= (IZR W * bpow radix2 e) * (IZR W * bpow radix2 e))%R ->
  KG q -> KG p -> (B2R q <= B2R p)%R -> BG (S k) (nadd v (nmul a (nsub p q))) (v' + a' * (B2R p - B2R q))%R.
Proof.
  intros (z & -> & Hz & Hv) Ha Hb (zq & Gq & Hq) (zp & Gp & Hp) Hle.
  destruct (AG_area l a a' Ha Hb) as (za & Ga & -> & Hza).
  assert (Hqp : (zq <= zp)%Z) by (rewrite (proj2 Gq), (proj2 Gp) in Hle; apply gle in Hle; auto).
  exists (z + za * (zp - zq))%Z. split.
  { destruct Gq as [_ ->], Gp as [_ ->]. rewrite plus_IZR, mult_IZR, minus_IZR, !bpow_plus. ring. }
  assert (Hm : (0 <= za * (zp - zq))%Z) by nia.
  split; [lia|]. intros Hc. apply gv_plus; auto; [apply Hv; lia| |lia].
  apply gv_mult; auto; [|lia]. apply gv_minus; auto. lia.
Qed.
Lemma BG_last k l v v' a a' q : BG k v v' -> AG l a a' -> (a' <= (IZR W * bpow radix2 e) * (IZR W * bpow radix2 e))%R ->
  KG q -> BG (S k) (nsub v (nmul a q)) (v' - a' * B2R q)%R.
Proof.
  intros (z & -> & Hz & Hv) Ha Hb (zq & Gq & Hq).
  destruct (AG_area l a a' Ha Hb) as (za & Ga & -> & Hza).
  exists (z - za * zq)%Z. split.
  { destruct Gq as [_ ->]. rewrite minus_IZR, mult_IZR, !bpow_plus. ring. }
  assert (Hm : (za * zq <= 0)%Z) by nia.
  split; [lia|]. intros Hc. apply gv_minus; auto; [apply Hv; lia| |lia].
  apply gv_mult; auto. lia.
Qed.
End L2.
End Ex.

(** the volume is at most that of the bounding box *)
Lemma hv_box d P w : (0 <= w)%R -> (forall p k, In p P -> (k < d) -> (- w <= p k)%R) -> (hv d (fun _ => 0%R) P <= w ^ d)%R.
Proof.
  intros Hw HP. apply Rle_trans with (hv d (fun _ => 0%R) [(fun _ => - w)%R]).
  - apply hv_mono. intros p Hp. exists (fun _ => - w)%R. split; [left; auto|]. intros k Hk. auto.
  - simpl. rewrite Rminus_0_r, Rplus_0_r. unfold box.
    assert (E : forall d, prodn d (fun _ => Rmax 0 (0 - - w)) = (w ^ d)%R).
    { clear d HP. induction d as [|d IH]; simpl; auto. rewrite IH, Rmax_right by lra. ring. }
    rewrite E. lra.
Qed.

Lemma W53 (ref : list double) (e W : Z) : 1 <= length ref <= 3 -> (0 <= W)%Z -> (W ^ Z.of_nat (length ref) <= 2 ^ 53)%Z ->
  (-1074 <= Z.of_nat (length ref) * e <= 970)%Z -> (0 <= W <= 2 ^ 53)%Z /\ (-1074 <= e <= 970)%Z.
Proof.
  intros Hm HW0 HW He.
  split; [|nia]. split; auto. destruct (Z.eq_dec W 0) as [->|]; [lia|].
  apply Z.le_trans with (W ^ Z.of_nat (length ref))%Z; auto.
  rewrite <- (Z.pow_1_r W) at 1. apply Z.pow_le_mono_r; lia.
Qed.

Section Main.
Variables (minf : double) (argsort : list double -> list nat) (front : list (list double)) (ref : list double) (e W : Z).
Hypothesis Hargs : dargsort_ok argsort.
Hypothesis Hm : 1 <= length ref <= 3.
Hypothesis Hrows : forall p, In p front -> length p = length ref.
Hypothesis Hgrid : forall p x, In p front -> In x p -> exists z, gv e z x.
Hypothesis Hgridr : forall x, In x ref -> exists z, gv e z x.
Hypothesis Hdiff : forall p k, In p front -> weakly_dominates (map dR p) (map dR ref) -> k < length ref ->
  (B2R (nth k ref d0) - B2R (nth k p d0) <= IZR W * bpow radix2 e)%R.
Hypothesis HW0 : (0 <= W)%Z.
Hypothesis HW : (W ^ Z.of_nat (length ref) <= 2 ^ 53)%Z.
Hypothesis He : (-1074 <= Z.of_nat (length ref) * e <= 970)%Z.
Hypothesis Hminf : is_finite minf = true.
Hypothesis Hminf' : (B2R minf < - (IZR W * bpow radix2 e))%R.

Notation rel := (filter (fun p => weakly_dom p ref) front).
Notation pts := (relevant_points front ref).

Lemma ex_fin p x : In p front -> In x p -> is_finite x = true.
Proof. intros H1 H2. destruct (Hgrid p x H1 H2) as (z & H & _). exact H. Qed.
Lemma ex_finr x : In x ref -> is_finite x = true.
Proof. intros H1. destruct (Hgridr x H1) as (z & H & _). exact H. Qed.

Lemma ex_diff p k : In p front -> weakly_dominates (map dR p) (map dR ref) -> k < length ref ->
  exists z, (B2R (nth k p d0) - B2R (nth k ref d0) = IZR z * bpow radix2 e)%R /\ (- W <= z <= 0)%Z.
Proof.
  intros Hp Hw Hk. assert (Hd := Hdiff p k Hp Hw Hk). destruct Hw as [Hl Hw]. rewrite !map_length in Hl.
  destruct (Hgrid p (nth k p d0) Hp) as (zp & _ & Ep); [apply nth_In; lia|].
  destruct (Hgridr (nth k ref d0)) as (zr & _ & Er); [apply nth_In; auto|].
  specialize (Hw k). rewrite map_length, !nth_dR in Hw.
  specialize (Hw ltac:(lia)). exists (zp - zr)%Z. rewrite Ep, Er in *.
  split; [rewrite minus_IZR; ring|]. apply gle in Hw.
  assert (H : (IZR (zr - zp) * bpow radix2 e <= IZR W * bpow radix2 e)%R) by (rewrite minus_IZR; lra).
  apply gle in H. lia.
Qed.

Lemma exact_main : exists v, hypervolume minf argsort front ref = Ok v /\ is_finite v = true /\
  is_hypervolume (map (map dR) front) (map dR ref) (B2R v) /\
  (2 <= length ref -> exists z, (0 <= z <= W ^ Z.of_nat (length ref))%Z /\ B2R v = (IZR z * bpow radix2 (Z.of_nat (length ref) * e))%R).
Proof.
  destruct (W53 ref e W Hm HW0 HW He) as [HW53 He53].
  assert (Hrd : forall p k, In p front -> weakly_dominates (map dR p) (map dR ref) -> k < length ref ->
    rnd (B2R (nth k p d0) - B2R (nth k ref d0)) = (B2R (nth k p d0) - B2R (nth k ref d0))%R /\
    (Rabs (rnd (B2R (nth k p d0) - B2R (nth k ref d0))) < bpow radix2 1024)%R).
  { intros p k Hp Hw Hk. destruct (ex_diff p k Hp Hw Hk) as (z & -> & Hz). rewrite grid_rnd by lia.
    split; auto. apply grid_fit; lia. }
  destruct (relevant_double front ref Hrows ex_fin ex_finr) as [HL HP]; [intros; apply Hrd; auto|].
  assert (HK : forall p x, In p pts -> In x p -> KG e W x).
  { intros p x Hp Hx. apply (In_nth _ _ []) in Hp as (i & Hi & <-). rewrite HL in Hi.
    destruct (HP i Hi) as [Hl Hc]. apply (In_nth _ _ d0) in Hx as (k & Hk & <-). rewrite Hl in Hk.
    destruct (Hc k Hk) as [F1 F2]. destruct (rel_dom front ref Hrows ex_fin ex_finr (nth i rel []) (nth_In _ _ Hi)) as [D1 D2].
    destruct (ex_diff _ k D1 D2 Hk) as (z & Ez & Hz). exists z. split; [|exact Hz]. split; [exact F1|].
    rewrite F2, <- Ez. apply Hrd; auto. }
  assert (Hlen : forall p, In p pts -> length p = length ref).
  { intros p Hp. apply (In_nth _ _ []) in Hp as (i & Hi & <-). rewrite HL in Hi. apply HP; auto. }
  assert (Eq : hv (length ref) (fun _ => 0%R) (map co (map (map dR) pts)) = HVof (map (map dR) front) (map dR ref)).
  { apply (hv_exact_shift front ref Hrows ex_fin ex_finr); [rewrite map_length; exact HL|].
    intros x k Hx Hk. change (@nil R) with (map dR []) at 1. rewrite map_nth, nth_dR.
    destruct (HP x Hx) as [_ Hc]. destruct (Hc k Hk) as [_ ->].
    destruct (rel_dom front ref Hrows ex_fin ex_finr (nth x rel []) (nth_In _ _ Hx)) as [D1 D2]. apply Hrd; auto. }
  assert (Hbox : (hv (length ref) (fun _ => 0%R) (map co (map (map dR) pts)) <= (IZR W * bpow radix2 e) ^ length ref)%R).
  { apply hv_box.
    - apply Rmult_le_pos; [apply IZR_le; lia|apply bpow_ge_0].
    - intros q k Hq Hk. rewrite map_map in Hq. apply in_map_iff in Hq as (p & <- & Hp). unfold co. rewrite nth_dR.
      apply (KG_W e W). apply (HK p); auto. apply nth_In. rewrite Hlen; auto. }
  assert (Hval : forall w, is_hypervolume (map (map dR) pts) (repeat 0%R (length ref)) w ->
     w = HVof (map (map dR) front) (map dR ref) /\ (w <= (IZR W * bpow radix2 e) ^ length ref)%R).
  { intros w Hw. apply is_hv_iff in Hw.
    - rewrite repeat_length in Hw.
      replace (co (repeat 0%R (length ref))) with (fun _ : nat => 0%R) in Hw.
      + rewrite Hw. split; auto.
      + extensionality k. unfold co. symmetry. apply nth_repeat.
    - intros p Hp. apply in_map_iff in Hp as (q & <- & Hq). rewrite map_length, repeat_length. auto. }
  assert (Hneg : forall p x, In p pts -> In x p -> (B2R minf < B2R x <= 0)%R).
  { intros p x Hp Hx. pose proof (KG_n e W x (HK p x Hp Hx)). pose proof (KG_W e W x (HK p x Hp Hx)). lra. }
  assert (Hpf : forall p x, In p pts -> In x p -> is_finite x = true) by (intros p x Hp Hx; apply (KG_f e W), (HK p); auto).
  assert (Hrok : rows_ok (map (map dR) front) (map dR ref)).
  { intros p Hp. apply in_map_iff in Hp as (q & <- & Hq). rewrite !map_length. auto. }
  assert (Goal : forall (v : double) w, is_hypervolume (map (map dR) pts) (repeat 0%R (length ref)) w ->
    ((w <= (IZR W * bpow radix2 e) ^ length ref)%R -> is_finite v = true /\ B2R v = w) ->
    is_finite v = true /\ is_hypervolume (map (map dR) front) (map dR ref) (B2R v)).
  { intros v w Hw Hv. destruct (Hval w Hw) as [E1 E2]. destruct (Hv E2) as [V1 V2]. split; auto.
    rewrite V2, E1. apply hv_is_hypervolume. exact Hrok. }
  unfold hypervolume. destruct (length ref) as [|D] eqn:ED; [lia|].
  set (Wr := (IZR W * bpow radix2 e)%R) in *.
  destruct D as [|[|[|?]]]; [| | |lia].
  - destruct (top_run argsort Hargs pts Hpf minf Hminf Hneg 0 Hlen (KG e W) (KG_f e W) HK (KG_n e W) Wr (KG_W e W)
      (fun _ _ _ => True) I (fun _ _ _ _ => I) (fun _ _ _ _ _ _ _ _ _ _ _ _ => I) (fun _ _ _ _ _ _ _ _ _ => I)
      (fun _ _ _ => True) I (fun _ _ _ _ _ _ _ _ _ _ _ _ _ _ => I) (fun _ _ _ _ _ _ _ _ _ _ _ => I)) as (v & w & H1 & H2 & H3); [lia|].
    exists v. split; [exact H1|]. destruct (Goal v w H2 (fun _ => H3)) as [G1 G2]. split; [exact G1|]. split; [exact G2|]. lia.
  - assert (HW2 : (W * W <= 2 ^ 53)%Z) by (replace (W * W)%Z with (W ^ 2)%Z by ring; exact HW).
    assert (He2 : (-1074 <= e + e <= 970)%Z) by lia.
    destruct (top_run argsort Hargs pts Hpf minf Hminf Hneg 1 Hlen (KG e W) (KG_f e W) HK (KG_n e W) Wr (KG_W e W)
      (AG e W) (AG_0 e W) (AG_mono e W) (fun k v v' h q p _ => AG_step e W HW53 He53 HW2 He2 k v v' h q p)
      (fun k v v' h q _ => AG_last e W HW2 He2 k v v' h q)
      (fun _ _ _ => True) I (fun _ _ _ _ _ _ _ _ _ _ _ _ _ _ => I) (fun _ _ _ _ _ _ _ _ _ _ _ => I)) as (v & w & H1 & H2 & H3); [lia|].
    exists v. split; [exact H1|]. destruct (Hval w H2) as [_ Hb]. destruct H3 as (z & Ez & Hz & Hv).
    assert (Hb' : (z <= W * W)%Z).
    { rewrite Ez in Hb. unfold Wr in Hb. replace ((IZR W * bpow radix2 e) ^ 2)%R with (IZR (W * W) * bpow radix2 (e + e))%R in Hb
        by (rewrite mult_IZR, bpow_plus; simpl; ring). apply gle in Hb. exact Hb. }
    destruct (Hv Hb') as [V1 V2].
    destruct (Goal v w H2) as [G1 G2]; [intros _; split; [exact V1|rewrite V2, Ez; reflexivity]|].
    split; [exact G1|]. split; [exact G2|]. intros _. exists z. split; [change (Z.of_nat 2) with 2%Z; replace (W ^ 2)%Z with (W * W)%Z by ring; lia|].
    rewrite V2. f_equal. f_equal. lia.
  - assert (HW3 : (W * W * W <= 2 ^ 53)%Z) by (replace (W * W * W)%Z with (W ^ 3)%Z by ring; exact HW).
    assert (HW2 : (W * W <= 2 ^ 53)%Z) by nia.
    assert (He3 : (-1074 <= e + e + e <= 970)%Z) by lia.
    assert (He2 : (-1074 <= e + e <= 970)%Z) by lia.
    destruct (top_run argsort Hargs pts Hpf minf Hminf Hneg 2 Hlen (KG e W) (KG_f e W) HK (KG_n e W) Wr (KG_W e W)
      (AG e W) (AG_0 e W) (AG_mono e W) (fun k v v' h q p _ => AG_step e W HW53 He53 HW2 He2 k v v' h q p)
      (fun k v v' h q _ => AG_last e W HW2 He2 k v v' h q)
      (BG e W) (BG_0 e W) (fun k v v' a a' q p _ => BG_step e W HW53 He53 HW3 He3 k _ v v' a a' q p)
      (fun k v v' a a' q _ => BG_last e W HW53 HW3 He3 k _ v v' a a' q)) as (v & w & H1 & H2 & H3); [lia|].
    exists v. split; [exact H1|]. destruct (Hval w H2) as [_ Hb]. destruct H3 as (z & Ez & Hz & Hv).
    assert (Hb' : (z <= W * W * W)%Z).
    { rewrite Ez in Hb. unfold Wr in Hb. replace ((IZR W * bpow radix2 e) ^ 3)%R with (IZR (W * W * W) * bpow radix2 (e + e + e))%R in Hb
        by (rewrite !mult_IZR, !bpow_plus; simpl; ring). apply gle in Hb. exact Hb. }
    destruct (Hv Hb') as [V1 V2].
    destruct (Goal v w H2) as [G1 G2]; [intros _; split; [exact V1|rewrite V2, Ez; reflexivity]|].
    split; [exact G1|]. split; [exact G2|]. intros _. exists z. split; [change (Z.of_nat 3) with 3%Z; replace (W ^ 3)%Z with (W * W * W)%Z by ring; lia|].
    rewrite V2. f_equal. f_equal. lia.
Qed.
End Main.
