(** C170, C171: the derivatives of the hypervolume computed in IEEE double precision. *)
From Coq Require Import ZArith Reals Lra List Arith Lia Bool Permutation.
From Flocq Require Import Core IEEE754.BinarySingleNaN.
From Verif Require Import Num Exn ListAux NDSModel NDSSpec HVSpec HVModel HVHom HVDModel HVDSpec DblModel DblSpec DblNDS DblSim DblTop DblGrad DblGradI PropsDblHV.
Import ListNotations.
Open Scope nat_scope.

(** all coordinates satisfy [Q] *)
Definition coords (Q : double -> Prop) (Y : list (list double)) (ref : list double) : Prop :=
  (forall p x, In p Y -> In x p -> Q x) /\ (forall x, In x ref -> Q x).
(** the entries of [g] for dominated points and for coordinates without ties *)
Definition gradient_within (E : double -> R -> Prop) (Y : list (list double)) (ref : list double) (g : list (list double)) : Prop :=
  has_shape (length Y) (length ref) g /\
  forall i k, i < length Y -> k < length ref -> is_finite (nth k (nth i g []) d0) = true /\
    ((exists j, j < length Y /\ dominates (nth j (dmat Y) []) (nth i (dmat Y) [])) -> E (nth k (nth i g []) d0) 0%R) /\
    (no_tie (dmat Y) i k -> exists s, is_slope (dmat Y) (dvec ref) i k s /\ is_partial (dmat Y) (dvec ref) i k s /\ E (nth k (nth i g []) d0) s).
(** the entries of [H] *)
Definition hessian_within (E : double -> R -> Prop) (Y : list (list double)) (ref : list double) (H : list (list (list (list double)))) : Prop :=
  length H = length Y /\
  (forall i, i < length Y -> length (nth i H []) = length ref /\
     forall k, k < length ref -> has_shape (length Y) (length ref) (nth k (nth i H []) [])) /\
  forall i k j l, i < length Y -> k < length ref -> j < length Y -> l < length ref ->
    is_finite (nth l (nth j (nth k (nth i H []) []) []) d0) = true /\
    exists s, is_hess (dmat Y) (dvec ref) i k j l s /\ E (nth l (nth j (nth k (nth i H []) []) []) d0) s.

(** * Plumbing *)
Lemma lift_grad (E0 E : double -> R -> Prop) (minf : double) argsort (minr : R) Y ref :
  (forall x s, E0 x s -> is_finite x = true /\ E x s) ->
  Y <> [] -> (forall p, In p Y -> length p = length ref) -> inside (dmat Y) (dvec ref) -> above_all minr (dmat Y) (dvec ref) ->
  2 <= length ref <= 4 ->
  rsim (Forall2 (Forall2 E0)) (compute_HVdY minf argsort (length ref) Y ref) (compute_HVdY minr stable_argsort (length ref) (dmat Y) (dvec ref)) ->
  exists g, compute_HVdY minf argsort (length ref) Y ref = Ok g /\ gradient_within E Y ref g.
Proof.
  intros H0 HY HR Hin Hab Hm HS. destruct (grad_of minf argsort minr E0 Y ref HY HR Hin Hab Hm HS) as (g & E1 & E2 & E3).
  exists g. split; auto. split; auto. intros i k Hi Hk. destruct (E3 i k Hi Hk) as ((s & Hs) & G1 & G2).
  split; [apply (H0 _ _ Hs)|]. split.
  - intros Hd. apply (H0 _ _ (G1 Hd)).
  - intros Ht. destruct (G2 Ht) as (t & T1 & T2 & T3). exists t. split; auto. split; auto. apply (H0 _ _ T3).
Qed.
Lemma lift_hess (E0 E : double -> R -> Prop) (minf : double) argsort (minr : R) Y ref :
  (forall x s, E0 x s -> is_finite x = true /\ E x s) ->
  Y <> [] -> (forall p, In p Y -> length p = length ref) -> inside (dmat Y) (dvec ref) -> above_all minr (dmat Y) (dvec ref) ->
  2 <= length ref <= 5 -> general_position (dmat Y) (dvec ref) ->
  rsim (Forall2 (Forall2 (Forall2 (Forall2 E0)))) (compute_HVdY2 minf argsort (length ref) Y ref) (compute_HVdY2 minr stable_argsort (length ref) (dmat Y) (dvec ref)) ->
  exists H, compute_HVdY2 minf argsort (length ref) Y ref = Ok H /\ hessian_within E Y ref H.
Proof.
  intros H0 HY HR Hin Hab Hm Hg HS. destruct (hess_of minf argsort minr E0 Y ref HY HR Hin Hab Hm Hg HS) as (g & E1 & E2 & E3 & E4).
  exists g. split; auto. split; auto. split; auto. intros i k j l Hi Hk Hj Hl. destruct (E4 i k j l Hi Hk Hj Hl) as (s & S1 & S2).
  destruct (H0 _ _ S2) as [A B]. split; auto. exists s. auto.
Qed.
Lemma above_of (Q : double -> Prop) (w : R) Y ref : coords Q Y ref -> (forall p, In p Y -> length p = length ref) ->
  (forall x y, Q x -> Q y -> (- w <= B2R x - B2R y)%R) -> above_all (- w) (dmat Y) (dvec ref).
Proof.
  intros [C1 C2] HR HQ i k Hi Hk. unfold coord. rewrite (dmat_nth Y i).
  pose proof (dvec_nth (nth i Y []) k) as Q1. pose proof (dvec_nth ref k) as Q2. change (@nzero R _) with 0%R in Q1, Q2. rewrite Q1, Q2.
  assert (L1 : length (dmat Y) = length Y) by apply map_length. assert (L2 : length (dvec ref) = length ref) by apply dvec_len. rewrite L1 in Hi. rewrite L2 in Hk.
  assert (Hp : In (nth i Y []) Y) by (apply nth_In; auto).
  apply HQ; [apply (C1 _ _ Hp), nth_In; rewrite (HR _ Hp); auto|apply C2, nth_In; auto].
Qed.
Definition below1022 (x : double) : Prop := is_finite x = true /\ (Rabs (B2R x) <= bpow radix2 1022)%R.
Definition grid_in (e W : Z) (L : R) (x : double) : Prop := on_grid e x /\ (L <= B2R x <= L + IZR W * bpow radix2 e)%R.
Definition moderate_in (L B : R) (x : double) : Prop := moderate x /\ (L <= B2R x <= L + B)%R.
Lemma above1 Y ref : coords below1022 Y ref -> (forall p, In p Y -> length p = length ref) -> above_all (- bpow radix2 1023) (dmat Y) (dvec ref).
Proof.
  intros HC HR. apply (above_of below1022); auto. intros x y [_ Hx] [_ Hy].
  change 1023%Z with (1 + 1022)%Z. rewrite bpow_plus. change (bpow radix2 1) with 2%R.
  apply Rcomplements.Rabs_le_between in Hx, Hy. lra.
Qed.

Lemma w_root W n : (0 <= W)%Z -> 1 <= n -> (W ^ Z.of_nat n <= 2 ^ 53)%Z -> (W <= 2 ^ 53)%Z.
Proof.
  intros H0 Hn H. destruct (Z.eq_dec W 0) as [->|Hw]; [lia|]. eapply Z.le_trans; [|exact H].
  rewrite <- (Z.pow_1_r W) at 1. apply Z.pow_le_mono_r; lia.
Qed.
Lemma e_root e n : 1 <= n <= 3 -> (-1074 <= Z.of_nat n * e <= 970)%Z -> (-1074 <= e <= 970)%Z.
Proof. intros Hn H. destruct n as [|[|[|[|n]]]]; lia. Qed.

(** * C170: the gradient *)
(** two objectives: every entry is the correctly rounded partial derivative *)
Theorem C170_gradient_rounded : forall (minf : double) argsort Y ref,
  length ref = 2 -> Y <> [] -> (forall p, In p Y -> length p = length ref) ->
  coords (fun x => is_finite x = true /\ (Rabs (B2R x) <= bpow radix2 1022)%R) Y ref ->
  inside (dmat Y) (dvec ref) ->
  exists g, compute_HVdY minf argsort (length ref) Y ref = Ok g /\
    gradient_within (fun x s => B2R x = nearest s) Y ref g.
Proof.
  intros minf argsort Y ref Hm HY HR HC Hin. apply (lift_grad E1 _ minf argsort (- bpow radix2 1023)); auto; [apply above1; auto|lia|].
  apply (HVdY_sim minf argsort (- bpow radix2 1023) stable_argsort ok1 E1 1 (length Y)); auto; try lia.
  - intros x [H _]; auto.
  - apply E1_zero.
  - apply E1_mone.
  - apply E1_neg.
  - intros _. apply E1_sub.
  - intros p Hp x Hx. apply (proj1 HC p x Hp Hx).
  - intros x Hx. apply (proj2 HC x Hx).
  - left. lia.
Qed.
Print Assumptions C170_gradient_rounded.

(** up to four objectives: on a grid that is not too fine for its extent, every entry is
    exactly the partial derivative *)
Theorem C170_gradient_grid : forall argsort Y ref (e W : Z) (L : R),
  dargsort_ok argsort -> 2 <= length ref <= 4 -> Y <> [] -> (forall p, In p Y -> length p = length ref) ->
  coords (fun x => on_grid e x /\ (L <= B2R x <= L + IZR W * bpow radix2 e)%R) Y ref ->
  (0 <= W)%Z -> (W ^ Z.of_nat (length ref - 1) <= 2 ^ 53)%Z -> (-1074 <= Z.of_nat (length ref - 1) * e <= 970)%Z ->
  inside (dmat Y) (dvec ref) ->
  exists g, compute_HVdY minus_1e308 argsort (length ref) Y ref = Ok g /\
    gradient_within (fun x s => B2R x = s) Y ref g.
Proof.
  intros argsort Y ref e W L Ha Hm HY HR HC HW0 HW He Hin.
  assert (HW1 : (W <= 2 ^ 53)%Z) by (apply (w_root W (length ref - 1)); auto; lia).
  assert (He1 : (-1074 <= e <= 970)%Z) by (apply (e_root e (length ref - 1)); auto; lia).
  apply (lift_grad EX _ minus_1e308 argsort (mr e W)); auto.
  - apply (above_of (grid_in e W L)); auto. intros x y [_ Hx] [_ Hy]. lra.
  - apply (HVdY_sim minus_1e308 argsort (mr e W) stable_argsort (okG e W L) EX (length ref - 1) (length Y)); auto; try lia.
    + intros x [[H _] _]; auto.
    + apply EX_zero.
    + apply EX_mone.
    + apply EX_neg.
    + intros HD. apply (EX_sub e W L (length ref - 1)); auto; lia.
    + intros y F r HD HL _ Hr HF Hk. apply (EX_impr argsort e W L (length ref - 1)); auto; lia.
    + intros p Hp x Hx. apply (proj1 HC p x Hp Hx).
    + intros x Hx. apply (proj2 HC x Hx).
    + destruct (Nat.eq_dec (length ref) 2) as [->|]; [left; lia|right; lia].
Qed.
Print Assumptions C170_gradient_grid.

(** three and four objectives: the absolute error is a small multiple of the volume of a
    cube of one dimension less *)
Theorem C170_gradient_error : forall argsort Y ref (L B : R),
  dargsort_ok argsort -> 3 <= length ref <= 4 -> Y <> [] -> (forall p, In p Y -> length p = length ref) ->
  coords (fun x => moderate x /\ (L <= B2R x <= L + B)%R) Y ref ->
  (0 <= B <= bpow radix2 251)%R -> (INR (length Y) <= bpow radix2 50)%R ->
  inside (dmat Y) (dvec ref) ->
  exists g, compute_HVdY minus_1e308 argsort (length ref) Y ref = Ok g /\
    gradient_within (fun x s => (Rabs (B2R x - s) <= (4 * INR (length Y) + 18) * bpow radix2 (-52) * B ^ (length ref - 1))%R) Y ref g.
Proof.
  intros argsort Y ref L B Ha Hm HY HR HC [HB0 HB1] HN Hin.
  apply (lift_grad (EA B (length ref - 1) (length Y)) _ minus_1e308 argsort (mA B)); auto; [|lia|].
  - apply (above_of (moderate_in L B)); auto. intros x y [_ Hx] [_ Hy]. lra.
  - apply (HVdY_sim minus_1e308 argsort (mA B) stable_argsort (okA L B) (EA B (length ref - 1) (length Y)) (length ref - 1) (length Y)); auto; try lia.
    + intros x [[H _] _]; auto.
    + apply EA_zero; auto.
    + apply EA_mone; auto.
    + intros x r. apply EA_neg.
    + intros y F r HD HL HF Hr Hk1 Hk2. apply (EA_impr argsort L B); auto; lia.
    + intros p Hp x Hx. apply (proj1 HC p x Hp Hx).
    + intros x Hx. apply (proj2 HC x Hx).
    + right; lia.
Qed.
Print Assumptions C170_gradient_error.

(** * C171: the Hessian *)
Theorem C171_hessian_rounded : forall (minf : double) argsort Y ref,
  2 <= length ref <= 3 -> Y <> [] -> (forall p, In p Y -> length p = length ref) ->
  coords (fun x => is_finite x = true /\ (Rabs (B2R x) <= bpow radix2 1022)%R) Y ref ->
  general_position (dmat Y) (dvec ref) -> inside (dmat Y) (dvec ref) ->
  exists H, compute_HVdY2 minf argsort (length ref) Y ref = Ok H /\
    hessian_within (fun x s => B2R x = nearest s) Y ref H.
Proof.
  intros minf argsort Y ref Hm HY HR HC Hg Hin. apply (lift_hess E1 _ minf argsort (- bpow radix2 1023)); auto; [apply above1; auto|lia|].
  apply (HVdY2_sim minf argsort (- bpow radix2 1023) stable_argsort ok1 E1 1 (length Y)); auto; try lia.
  - intros x [H _]; auto.
  - apply E1_zero.
  - apply E1_mone.
  - apply E1_neg.
  - intros _. apply E1_sub.
  - intros p Hp x Hx. apply (proj1 HC p x Hp Hx).
  - intros x Hx. apply (proj2 HC x Hx).
  - left. lia.
Qed.
Print Assumptions C171_hessian_rounded.

Theorem C171_hessian_grid : forall argsort Y ref (e W : Z) (L : R),
  dargsort_ok argsort -> 3 <= length ref <= 5 -> Y <> [] -> (forall p, In p Y -> length p = length ref) ->
  coords (fun x => on_grid e x /\ (L <= B2R x <= L + IZR W * bpow radix2 e)%R) Y ref ->
  (0 <= W)%Z -> (W ^ Z.of_nat (length ref - 2) <= 2 ^ 53)%Z -> (-1074 <= Z.of_nat (length ref - 2) * e <= 970)%Z ->
  general_position (dmat Y) (dvec ref) -> inside (dmat Y) (dvec ref) ->
  exists H, compute_HVdY2 minus_1e308 argsort (length ref) Y ref = Ok H /\
    hessian_within (fun x s => B2R x = s) Y ref H.
Proof.
  intros argsort Y ref e W L Ha Hm HY HR HC HW0 HW He Hg Hin.
  assert (HW1 : (W <= 2 ^ 53)%Z) by (apply (w_root W (length ref - 2)); auto; lia).
  assert (He1 : (-1074 <= e <= 970)%Z) by (apply (e_root e (length ref - 2)); auto; lia).
  apply (lift_hess EX _ minus_1e308 argsort (mr e W)); auto; [|lia|].
  - apply (above_of (grid_in e W L)); auto. intros x y [_ Hx] [_ Hy]. lra.
  - apply (HVdY2_sim minus_1e308 argsort (mr e W) stable_argsort (okG e W L) EX (length ref - 2) (length Y)); auto; try lia.
    + intros x [[H _] _]; auto.
    + apply EX_zero.
    + apply EX_mone.
    + apply EX_neg.
    + intros HD. apply (EX_sub e W L (length ref - 2)); auto; lia.
    + intros y F r HD HL _ Hr HF Hk. apply (EX_impr argsort e W L (length ref - 2)); auto; lia.
    + intros p Hp x Hx. apply (proj1 HC p x Hp Hx).
    + intros x Hx. apply (proj2 HC x Hx).
    + destruct (Nat.eq_dec (length ref) 3) as [->|]; [left; lia|right; lia].
Qed.
Print Assumptions C171_hessian_grid.

Theorem C171_hessian_error : forall argsort Y ref (L B : R),
  dargsort_ok argsort -> 4 <= length ref <= 5 -> Y <> [] -> (forall p, In p Y -> length p = length ref) ->
  coords (fun x => moderate x /\ (L <= B2R x <= L + B)%R) Y ref ->
  (0 <= B <= bpow radix2 251)%R -> (INR (length Y) <= bpow radix2 50)%R ->
  general_position (dmat Y) (dvec ref) -> inside (dmat Y) (dvec ref) ->
  exists H, compute_HVdY2 minus_1e308 argsort (length ref) Y ref = Ok H /\
    hessian_within (fun x s => (Rabs (B2R x - s) <= (4 * INR (length Y) + 18) * bpow radix2 (-52) * B ^ (length ref - 2))%R) Y ref H.
Proof.
  intros argsort Y ref L B Ha Hm HY HR HC [HB0 HB1] HN Hg Hin.
  apply (lift_hess (EA B (length ref - 2) (length Y)) _ minus_1e308 argsort (mA B)); auto; [|lia|].
  - apply (above_of (moderate_in L B)); auto. intros x y [_ Hx] [_ Hy]. lra.
  - apply (HVdY2_sim minus_1e308 argsort (mA B) stable_argsort (okA L B) (EA B (length ref - 2) (length Y)) (length ref - 2) (length Y)); auto; try lia.
    + intros x [[H _] _]; auto.
    + apply EA_zero; auto.
    + apply EA_mone; auto.
    + intros x r. apply EA_neg.
    + intros y F r HD HL HF Hr Hk1 Hk2. apply (EA_impr argsort L B); auto; lia.
    + intros p Hp x Hx. apply (proj1 HC p x Hp Hx).
    + intros x Hx. apply (proj2 HC x Hx).
    + right; lia.
Qed.
Print Assumptions C171_hessian_error.

(** * Concrete cases *)
#[local] Opaque dbl.
Lemma int_val z : (Z.abs z <= 2 ^ 53)%Z -> is_finite (dbl z 0) = true /\ B2R (dbl z 0) = IZR z.
Proof. intros Hz. destruct (dbl_val z 0 Hz) as [H1 H2]; [lia|]. split; auto. rewrite H2. simpl. ring. Qed.
Lemma int_mod z : (1 <= z <= 2 ^ 53)%Z -> moderate (dbl z 0).
Proof.
  intros Hz. destruct (int_val z) as [H1 H2]; [lia|]. split; auto. right. rewrite H2, Rabs_pos_eq by (apply IZR_le; lia). split.
  - apply Rle_trans with (bpow radix2 0); [apply bpow_le; lia|]. change (bpow radix2 0) with 1%R. apply IZR_le. lia.
  - apply Rle_trans with (bpow radix2 53); [|apply bpow_le; lia]. change (bpow radix2 53) with (IZR (2 ^ 53)). apply IZR_le. lia.
Qed.
Ltac every Hp := simpl in Hp; destruct Hp as [<-|Hp]; [|try every Hp; try (exfalso; exact Hp)].

Definition Y3 : list (list double) := [[dbl 1 0; dbl 3 0; dbl 2 0]; [dbl 2 0; dbl 1 0; dbl 3 0]; [dbl 3 0; dbl 2 0; dbl 1 0]].
Definition r3 : list double := [dbl 4 0; dbl 4 0; dbl 4 0].
Lemma small (Q : double -> Prop) : (forall z, (1 <= z <= 5)%Z -> Q (dbl z 0)) -> coords Q Y3 r3.
Proof.
  intros HQ. split.
  - intros p x Hp Hx. unfold Y3 in Hp. every Hp; every Hx; apply HQ; lia.
  - intros x Hx. unfold r3 in Hx. every Hx; apply HQ; lia.
Qed.
Lemma vals3 : dmat Y3 = [[1; 3; 2]; [2; 1; 3]; [3; 2; 1]]%R /\ dvec r3 = [4; 4; 4]%R.
Proof.
  assert (V : forall z, (Z.abs z <= 2 ^ 53)%Z -> B2R (dbl z 0) = IZR z) by (intros z Hz; apply int_val; auto).
  unfold dmat, dvec, Y3, r3. cbn [map]. rewrite !V by lia. split; reflexivity.
Qed.
Lemma inside3 : inside (dmat Y3) (dvec r3).
Proof.
  destruct vals3 as [-> ->]. intros i k Hi Hk. unfold coord. simpl in Hi, Hk.
  destruct i as [|[|[|i]]]; try lia; destruct k as [|[|[|k]]]; try lia; simpl; lra.
Qed.
Lemma general3 : general_position (dmat Y3) (dvec r3).
Proof.
  split.
  - destruct vals3 as [-> ->]. intros i k Hi Hk j Hj Hij. unfold coord. simpl in Hi, Hj, Hk.
    destruct i as [|[|[|i]]]; try lia; destruct j as [|[|[|j]]]; try lia; destruct k as [|[|[|k]]]; try lia; simpl; lra.
  - intros i k Hi Hk. apply Rlt_not_eq, inside3; auto.
Qed.
Example C170_example :
  exists g, compute_HVdY minus_1e308 stable_argsort 3 Y3 r3 = Ok g /\
    gradient_within (fun x s => B2R x = s) Y3 r3 g /\ B2R (nth 0 (nth 0 g []) d0) = (-2)%R.
Proof.
  destruct (C170_gradient_grid stable_argsort Y3 r3 0 5 0) as (g & E & H).
  - exact dstable_ok.
  - simpl; lia.
  - discriminate.
  - intros p Hp. unfold Y3 in Hp. every Hp; reflexivity.
  - apply small. intros z Hz. destruct (int_val z) as [H1 H2]; [lia|]. split; [apply dbl_grid; lia|]. rewrite H2. change (bpow radix2 0) with 1%R.
    assert (1 <= IZR z <= 5)%R by (split; apply IZR_le; lia). lra.
  - lia.
  - vm_compute. discriminate.
  - simpl. lia.
  - apply inside3.
  - exists g. split; [exact E|]. split; [exact H|].
    assert (Hb : match compute_HVdY minus_1e308 stable_argsort 3 Y3 r3 with Ok g => B2SF (nth 0 (nth 0 g []) d0) | _ => SpecFloat.S754_nan end
       = SpecFloat.S754_finite true 4503599627370496 (-51)) by (vm_compute; reflexivity).
    change (length r3) with 3 in E. rewrite E in Hb. rewrite <- SF2R_B2SF, Hb. cbn [SF2R]. unfold F2R; cbn [Fnum Fexp]. simpl. lra.
Qed.
Example C170_error_example :
  exists g, compute_HVdY minus_1e308 stable_argsort 3 Y3 r3 = Ok g /\
    gradient_within (fun x s => (Rabs (B2R x - s) <= 30 * bpow radix2 (-52) * 5 ^ 2)%R) Y3 r3 g.
Proof.
  destruct (C170_gradient_error stable_argsort Y3 r3 0 5) as (g & E & H).
  - exact dstable_ok.
  - simpl; lia.
  - discriminate.
  - intros p Hp. unfold Y3 in Hp. every Hp; reflexivity.
  - apply small. intros z Hz. split; [apply int_mod; lia|]. destruct (int_val z) as [_ H2]; [lia|]. rewrite H2.
    assert (1 <= IZR z <= 5)%R by (split; apply IZR_le; lia). lra.
  - split; [lra|]. apply Rle_trans with (bpow radix2 3); [change (bpow radix2 3) with 8%R; lra|apply bpow_le; lia].
  - apply Rle_trans with (bpow radix2 3); [change (bpow radix2 3) with 8%R; simpl; lra|apply bpow_le; lia].
  - apply inside3.
  - exists g. split; [exact E|]. change (length Y3) with 3 in H. change (length r3 - 1) with 2 in H.
    replace (4 * INR 3 + 18)%R with 30%R in H by (simpl; ring). exact H.
Qed.
Example C171_example :
  exists H, compute_HVdY2 minus_1e308 stable_argsort 3 Y3 r3 = Ok H /\
    hessian_within (fun x s => B2R x = nearest s) Y3 r3 H /\ hessian_within (fun x s => B2R x = s) Y3 r3 H /\
    B2R (nth 1 (nth 0 (nth 0 (nth 0 H []) []) []) d0) = 2%R.
Proof.
  destruct (C171_hessian_rounded minus_1e308 stable_argsort Y3 r3) as (g1 & E1 & H1).
  - simpl; lia.
  - discriminate.
  - intros p Hp. unfold Y3 in Hp. every Hp; reflexivity.
  - apply small. intros z Hz. destruct (int_val z) as [F1 F2]; [lia|]. split; auto. rewrite F2, Rabs_pos_eq by (apply IZR_le; lia).
    apply Rle_trans with (bpow radix2 3); [|apply bpow_le; lia]. change (bpow radix2 3) with 8%R. apply IZR_le. lia.
  - apply general3.
  - apply inside3.
  - destruct (C171_hessian_grid stable_argsort Y3 r3 0 5 0) as (g & E & H).
    + exact dstable_ok.
    + simpl; lia.
    + discriminate.
    + intros p Hp. unfold Y3 in Hp. every Hp; reflexivity.
    + apply small. intros z Hz. destruct (int_val z) as [F1 F2]; [lia|]. split; [apply dbl_grid; lia|]. rewrite F2. change (bpow radix2 0) with 1%R.
      assert (1 <= IZR z <= 5)%R by (split; apply IZR_le; lia). lra.
    + lia.
    + vm_compute. discriminate.
    + simpl. lia.
    + apply general3.
    + apply inside3.
    + exists g. rewrite E1 in E. injection E as ->. split; [exact E1|]. split; [exact H1|]. split; [exact H|].
      assert (Hb : match compute_HVdY2 minus_1e308 stable_argsort 3 Y3 r3 with Ok H => B2SF (nth 1 (nth 0 (nth 0 (nth 0 H []) []) []) d0) | _ => SpecFloat.S754_nan end
         = SpecFloat.S754_finite false 4503599627370496 (-51)) by (vm_compute; reflexivity).
      change (length r3) with 3 in E1. rewrite E1 in Hb. rewrite <- SF2R_B2SF, Hb. cbn [SF2R]. unfold F2R; cbn [Fnum Fexp]. simpl. lra.
Qed.

(** decimal data: the entries of two objectives are correctly rounded differences *)
Example C170_rounded_example :
  exists g, compute_HVdY minus_1e308 stable_argsort 2 [[m01; m04]; [m03; m03]] [d0; d0] = Ok g /\
    gradient_within (fun x s => B2R x = nearest s) [[m01; m04]; [m03; m03]] [d0; d0] g.
Proof.
  assert (V1 : is_finite m01 = true /\ (- 1 <= B2R m01 < 0)%R).
  { destruct (dbl_val (-3602879701896397) (-55)) as [F1 F2]; [lia|lia|]. split; [exact F1|]. change (B2R m01) with (B2R (dbl (-3602879701896397) (-55))).
    rewrite F2. change (bpow radix2 (-55)) with (/ IZR (2 ^ 55))%R. change (2 ^ 55)%Z with 36028797018963968%Z. lra. }
  assert (V3 : is_finite m03 = true /\ (- 1 <= B2R m03 < 0)%R).
  { destruct (dbl_val (-5404319552844595) (-54)) as [F1 F2]; [lia|lia|]. split; [exact F1|]. change (B2R m03) with (B2R (dbl (-5404319552844595) (-54))).
    rewrite F2. change (bpow radix2 (-54)) with (/ IZR (2 ^ 54))%R. change (2 ^ 54)%Z with 18014398509481984%Z. lra. }
  assert (V4 : is_finite m04 = true /\ (- 1 <= B2R m04 < 0)%R).
  { destruct (dbl_val (-3602879701896397) (-53)) as [F1 F2]; [lia|lia|]. split; [exact F1|]. change (B2R m04) with (B2R (dbl (-3602879701896397) (-53))).
    rewrite F2. change (bpow radix2 (-53)) with (/ IZR (2 ^ 53))%R. change (2 ^ 53)%Z with 9007199254740992%Z. lra. }
  assert (B1 : (1 <= bpow radix2 1022)%R) by (change 1%R with (bpow radix2 0); apply bpow_le; lia).
  apply (C170_gradient_rounded minus_1e308 stable_argsort [[m01; m04]; [m03; m03]] [d0; d0]).
  - reflexivity.
  - discriminate.
  - intros p Hp. every Hp; reflexivity.
  - split.
    + intros p x Hp Hx. every Hp; every Hx; (split; [tauto|apply Rabs_le; lra]).
    + intros x Hx. every Hx; (split; [reflexivity|change (B2R d0) with 0%R; rewrite Rabs_R0; lra]).
  - intros i k Hi Hk. unfold coord. simpl in Hi, Hk.
    destruct i as [|[|i]]; try lia; destruct k as [|[|k]]; try lia; unfold dmat, dvec; cbn [map nth]; change (B2R d0) with 0%R; lra.
Qed.

Definition Y4 : list (list double) := [[dbl 1 0; dbl 3 0; dbl 2 0; dbl 1 0]; [dbl 2 0; dbl 1 0; dbl 3 0; dbl 4 0]].
Definition r4 : list double := [dbl 5 0; dbl 5 0; dbl 5 0; dbl 5 0].
Example C171_error_example :
  exists H, compute_HVdY2 minus_1e308 stable_argsort 4 Y4 r4 = Ok H /\
    hessian_within (fun x s => (Rabs (B2R x - s) <= 26 * bpow radix2 (-52) * 4 ^ 2)%R) Y4 r4 H.
Proof.
  assert (V : forall z, (Z.abs z <= 2 ^ 53)%Z -> B2R (dbl z 0) = IZR z) by (intros z Hz; apply int_val; auto).
  assert (V4 : dmat Y4 = [[1; 3; 2; 1]; [2; 1; 3; 4]]%R /\ dvec r4 = [5; 5; 5; 5]%R).
  { unfold dmat, dvec, Y4, r4. cbn [map]. rewrite !V by lia. split; reflexivity. }
  assert (I4 : inside (dmat Y4) (dvec r4)).
  { destruct V4 as [-> ->]. intros i k Hi Hk. unfold coord. simpl in Hi, Hk.
    destruct i as [|[|i]]; try lia; destruct k as [|[|[|[|k]]]]; try lia; simpl; lra. }
  destruct (C171_hessian_error stable_argsort Y4 r4 1 4) as (g & E & H).
  - exact dstable_ok.
  - simpl; lia.
  - discriminate.
  - intros p Hp. unfold Y4 in Hp. every Hp; reflexivity.
  - assert (HQ : forall z, (1 <= z <= 5)%Z -> moderate (dbl z 0) /\ (1 <= B2R (dbl z 0) <= 1 + 4)%R).
    { intros z Hz. split; [apply int_mod; lia|]. rewrite V by lia. assert (1 <= IZR z <= 5)%R by (split; apply IZR_le; lia). lra. }
    split; [intros p x Hp Hx; unfold Y4 in Hp; every Hp; every Hx; apply HQ; lia|intros x Hx; unfold r4 in Hx; every Hx; apply HQ; lia].
  - split; [lra|]. apply Rle_trans with (bpow radix2 3); [change (bpow radix2 3) with 8%R; lra|apply bpow_le; lia].
  - apply Rle_trans with (bpow radix2 3); [change (bpow radix2 3) with 8%R; simpl; lra|apply bpow_le; lia].
  - split.
    + destruct V4 as [-> ->]. intros i k Hi Hk j Hj Hij. unfold coord. simpl in Hi, Hj, Hk.
      destruct i as [|[|i]]; try lia; destruct j as [|[|j]]; try lia; destruct k as [|[|[|[|k]]]]; try lia; simpl; lra.
    + intros i k Hi Hk. apply Rlt_not_eq, I4; auto.
  - exact I4.
  - exists g. split; [exact E|]. change (length Y4) with 2 in H. change (length r4 - 2) with 2 in H.
    replace (4 * INR 2 + 18)%R with 26%R in H by (simpl; ring). exact H.
Qed.
