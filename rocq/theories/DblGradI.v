(** Instances of the simulation of DblGrad: correctly rounded entries, exact entries on a
    grid, entries with an absolute error. *)
From Coq Require Import ZArith Reals Lra List Arith Lia Bool Permutation.
From Flocq Require Import Core IEEE754.BinarySingleNaN Plus_error Relative.
From Verif Require Import Num Exn ListAux NDSModel NDSSpec HVSpec HVModel HVTheory HVTop HVHom HVExtra HVDModel HVDSpec HVDProof DblModel DblSpec DblNDS DblSim DblTop DblRel DblExact DblErr DblGrad PropsDblHV.
Import ListNotations.
Open Scope nat_scope.

Lemma one_val : is_finite (nopp none_ : double) = true /\ B2R (nopp none_ : double) = (-1)%R.
Proof.
  unfold nopp, none_, NumD. split; [rewrite is_finite_Bopp; apply is_finite_Bone|]. rewrite B2R_Bopp, Bone_correct. lra.
Qed.
Lemma neg_val (x : double) : is_finite x = true ->
  is_finite (nmul (nopp none_) x) = true /\ B2R (nmul (nopp none_) x) = (- B2R x)%R.
Proof.
  intros Hx. destruct one_val as [O1 O2].
  assert (Er : rnd (B2R (nopp none_ : double) * B2R x) = (- B2R x)%R).
  { rewrite O2. replace (-1 * B2R x)%R with (- B2R x)%R by ring. rewrite rnd_opp. f_equal. apply round_generic; [apply valid_rnd_N|]. apply generic_format_B2R. }
  destruct (dmult_ok (nopp none_) x) as [P1 P2]; auto.
  - rewrite Er, Rabs_Ropp. apply abs_B2R_lt_emax.
  - split; auto. rewrite P2. auto.
Qed.

(** * Correct rounding *)
Definition ok1 (x : double) : Prop := is_finite x = true /\ (Rabs (B2R x) <= bpow radix2 1022)%R.
Definition E1 (x : double) (r : R) : Prop := is_finite x = true /\ B2R x = nearest r.
Lemma near_rnd r : nearest r = rnd r.
Proof. reflexivity. Qed.
Lemma E1_zero : E1 nzero 0%R.
Proof. split; [reflexivity|]. rewrite near_rnd, rnd_zero. reflexivity. Qed.
Lemma rnd_one : rnd 1 = 1%R.
Proof. apply round_generic; [apply valid_rnd_N|]. change 1%R with (bpow radix2 0). apply generic_format_bpow. unfold SpecFloat.fexp, SpecFloat.emin. lia. Qed.
Lemma E1_mone : E1 (nopp none_) (-1)%R.
Proof. destruct one_val as [O1 O2]. split; auto. rewrite O2, near_rnd. replace (-1)%R with (- (1))%R by ring. rewrite rnd_opp, rnd_one. auto. Qed.
Lemma E1_neg x r : E1 x r -> E1 (nmul (nopp none_) x) (-1 * r)%R.
Proof.
  intros [H1 H2]. destruct (neg_val x H1) as [P1 P2]. split; auto. rewrite P2, H2, !near_rnd, <- rnd_opp. replace (-1 * r)%R with (- r)%R by ring. reflexivity.
Qed.
Lemma E1_sub x y : ok1 x -> ok1 y -> E1 (nsub x y) (B2R x - B2R y)%R.
Proof.
  intros [H1 H2] [G1 G2]. apply dminus_ok; auto.
  apply Rle_lt_trans with (bpow radix2 1023); [|apply bpow_lt; lia].
  apply abs_round_le_generic; [apply fexp_correct; reflexivity|apply valid_rnd_N| |].
  - apply generic_format_bpow. unfold SpecFloat.fexp, SpecFloat.emin. lia.
  - change 1023%Z with (1 + 1022)%Z. rewrite bpow_plus. change (bpow radix2 1) with 2%R.
    unfold Rminus. eapply Rle_trans; [apply Rabs_triang|]. rewrite Rabs_Ropp. lra.
Qed.

(** * Exact entries on a grid *)
Section Grid.
Variables (argsort : list double -> list nat) (e W : Z) (L : R) (D : nat).
Hypothesis Hargs : dargsort_ok argsort.
Definition okG (x : double) : Prop := on_grid e x /\ (L <= B2R x <= L + IZR W * bpow radix2 e)%R.
Definition EX (x : double) (r : R) : Prop := is_finite x = true /\ B2R x = r.
Hypothesis HW0 : (0 <= W)%Z.
Hypothesis HW1 : (W <= 2 ^ 53)%Z.
Hypothesis He1 : (-1074 <= e <= 970)%Z.
Hypothesis HD : D <= 3.
Hypothesis HW : (W ^ Z.of_nat D <= 2 ^ 53)%Z.
Hypothesis He : (-1074 <= Z.of_nat D * e <= 970)%Z.
Definition mr : R := (- (IZR W * bpow radix2 e))%R.

Lemma okG_fin x : okG x -> is_finite x = true.
Proof. intros [[H _] _]. auto. Qed.
Lemma EX_neg x r : EX x r -> EX (nmul (nopp none_) x) (-1 * r)%R.
Proof. intros [H1 H2]. destruct (neg_val x H1) as [P1 P2]. split; auto. rewrite P2, H2. ring. Qed.
Lemma EX_mone : EX (nopp none_) (-1)%R.
Proof. apply one_val. Qed.
Lemma EX_zero : EX nzero 0%R.
Proof. split; reflexivity. Qed.
Lemma EX_sub x y : okG x -> okG y -> EX (nsub x y) (B2R x - B2R y)%R.
Proof.
  intros [(Fx & zx & Ex) Wx] [(Fy & zy & Ey) Wy].
  assert (H : gv e (zx - zy) (nsub x y)).
  { apply gv_minus; auto; [split; auto|split; auto|].
    assert (IZR (zx - zy) * bpow radix2 e <= IZR W * bpow radix2 e)%R by (rewrite minus_IZR; lra).
    assert (IZR (zy - zx) * bpow radix2 e <= IZR W * bpow radix2 e)%R by (rewrite minus_IZR; lra).
    apply gle in H, H0. lia. }
  destruct H as [H1 H2]. split; auto. rewrite H2, Ex, Ey, minus_IZR. ring.
Qed.

Lemma okG_diff x y : okG x -> okG y -> (B2R x - B2R y <= IZR W * bpow radix2 e)%R.
Proof. intros [_ H] [_ G]. lra. Qed.
Lemma grid_hv F ref : 2 <= D -> length ref = D -> rowsD F ref -> (forall p, In p F -> forall x, In x p -> okG x) -> (forall x, In x ref -> okG x) ->
  exists v z, hypervolume minus_1e308 argsort F ref = Ok v /\ B2R v = HVof (dmat F) (dvec ref) /\ gv (Z.of_nat D * e) z v /\ (0 <= z <= 2 ^ 53)%Z.
Proof.
  intros H2 HL HR HF Hr. destruct sentinel_val as [S1 S2].
  destruct (exact_main minus_1e308 argsort F ref e W) as (v & V1 & V2 & V3 & V4); auto; try (rewrite HL; auto; lia).
  - intros p x Hp Hx. destruct (HF p Hp x Hx) as [(Fx & z & Ex) _]. exists z. split; auto.
  - intros x Hx. destruct (Hr x Hx) as [(Fx & z & Ex) _]. exists z. split; auto.
  - intros p k Hp Hw Hk. apply okG_diff; [apply Hr, nth_In; auto|]. apply (HF p Hp), nth_In. rewrite (HR p Hp). auto.
  - eapply Rlt_le_trans; [exact S2|]. apply Ropp_le_contravar.
    change 1023%Z with (53 + 970)%Z. rewrite bpow_plus.
    apply Rmult_le_compat; [apply IZR_le; lia|apply bpow_ge_0| |apply bpow_le; lia].
    change (bpow radix2 53) with (IZR (2 ^ 53)). apply IZR_le. lia.
  - destruct V4 as (z & Hz & Ez); [lia|]. rewrite HL in Hz, Ez. exists v, z. split; auto. split.
    { apply is_hv_iff in V3; auto. apply rows_val; auto. }
    split; [split; auto|]. lia.
Qed.
Lemma EX_impr y F ref : 2 <= D -> length ref = D -> rowsD (y :: F) ref -> okm okG (y :: F) -> okv okG ref ->
  rsim EX (hypervolume_improvement minus_1e308 argsort y F ref) (hypervolume_improvement mr stable_argsort (dvec y) (dmat F) (dvec ref)).
Proof.
  intros H2 HL HR HF Hr.
  destruct (grid_hv (y :: F) ref H2 HL HR HF Hr) as (v1 & z1 & A1 & A2 & A3 & A4).
  destruct (grid_hv F ref H2 HL) as (v2 & z2 & B1 & B2 & B3 & B4); auto.
  { intros p Hp. apply HR; simpl; auto. } { intros p Hp. apply HF; simpl; auto. }
  rewrite (hvi_ok mr stable_argsort stable_argsort_ok).
  - unfold hypervolume_improvement. rewrite A1, B1. cbn [bind rsim].
    assert (H : gv (Z.of_nat D * e) (z1 - z2) (nsub v1 v2)) by (apply gv_minus; auto; lia).
    destruct H as [H1 H3]. split; auto. rewrite H3, minus_IZR.
    change (dvec y :: dmat F) with (dmat (y :: F)). rewrite <- A2, <- B2, (proj2 A3), (proj2 B3). ring.
  - split; [rewrite dvec_len; lia|]. split; [apply (rows_val (y :: F)); auto|]. split; [|left; rewrite dvec_len; lia].
    intros p k Hp _ Hk. change (dvec y :: dmat F) with (dmat (y :: F)) in Hp. apply in_map_iff in Hp as (q & <- & Hq).
    rewrite dvec_len in Hk. pose proof (dvec_nth q k) as Q1. pose proof (dvec_nth ref k) as Q2. change (@nzero R _) with 0%R in Q1, Q2. rewrite Q1, Q2. unfold mr.
    assert (okG (nth k ref nzero)) by (apply Hr, nth_In; auto).
    assert (okG (nth k q nzero)) by (apply (HF q Hq), nth_In; rewrite (HR q Hq); auto).
    pose proof (okG_diff _ _ H H0). lra.
Qed.
End Grid.

(** * Absolute errors *)
Section Abs.
Variables (argsort : list double -> list nat) (L B : R) (D N : nat).
Hypothesis Hargs : dargsort_ok argsort.
Definition okA (x : double) : Prop := moderate x /\ (L <= B2R x <= L + B)%R.
Definition delta : R := ((4 * INR N + 18) * bpow radix2 (-52) * B ^ D)%R.
Definition EA (x : double) (r : R) : Prop := is_finite x = true /\ (Rabs (B2R x - r) <= delta)%R.
Hypothesis HB : (0 <= B)%R.
Hypothesis HD : 2 <= D <= 3.
Hypothesis HN : (INR N <= bpow radix2 50)%R.
Lemma delta_pos : (0 <= delta)%R.
Proof.
  unfold delta. apply Rmult_le_pos; [|apply pow_le; auto]. apply Rmult_le_pos; [|apply bpow_ge_0]. pose proof (pos_INR N). lra.
Qed.
Lemma EA_zero : EA nzero 0%R.
Proof. split; [reflexivity|]. change (B2R (nzero : double)) with 0%R. rewrite Rminus_0_r, Rabs_R0. apply delta_pos. Qed.
Lemma EA_mone : EA (nopp none_) (-1)%R.
Proof. destruct one_val as [O1 O2]. split; auto. rewrite O2. replace (-1 - -1)%R with 0%R by ring. rewrite Rabs_R0. apply delta_pos. Qed.
Lemma EA_neg x r : EA x r -> EA (nmul (nopp none_) x) (-1 * r)%R.
Proof.
  intros [H1 H2]. destruct (neg_val x H1) as [P1 P2]. split; auto. rewrite P2. replace (- B2R x - -1 * r)%R with (- (B2R x - r))%R by ring.
  rewrite Rabs_Ropp. auto.
Qed.
Lemma hv_box_ref d r P w : (0 <= w)%R -> (forall p k, In p P -> (k < d) -> (r k - w <= p k)%R) -> (hv d r P <= w ^ d)%R.
Proof.
  intros Hw HP. apply Rle_trans with (hv d r [(fun k => r k - w)%R]).
  - apply hv_mono. intros p Hp. exists (fun k => r k - w)%R. split; [left; auto|]. intros k Hk. auto.
  - simpl. rewrite Rminus_0_r, Rplus_0_r. unfold box.
    assert (E : forall d, prodn d (fun k => Rmax 0 (r k - (r k - w))) = (w ^ d)%R).
    { clear d HP. induction d as [|d IH]; simpl; auto. rewrite IH, Rmax_right by lra. ring. }
    rewrite E. lra.
Qed.
Lemma abs_hv F ref : length ref = D -> length F <= N -> rowsD F ref -> (forall p, In p F -> forall x, In x p -> okA x) -> (forall x, In x ref -> okA x) ->
  exists v, hypervolume minus_1e308 argsort F ref = Ok v /\ is_finite v = true /\
    (0 <= HVof (dmat F) (dvec ref) <= B ^ D)%R /\
    (Rabs (B2R v - HVof (dmat F) (dvec ref)) <= (2 * INR N + 8) * bpow radix2 (-52) * B ^ D)%R.
Proof.
  intros HL HF HR HO Hr. destruct (C169_relative_error argsort F ref Hargs) as (v & V1 & V2 & V3); auto; try lia.
  - intros p x Hp Hx. apply (HO p Hp x Hx).
  - intros x Hx. apply (Hr x Hx).
  - eapply Rle_trans; [apply le_INR; exact HF|exact HN].
  - exists v. split; auto. split; auto.
    assert (Hw : (0 <= HVof (dmat F) (dvec ref) <= B ^ D)%R).
    { split; [apply hv_nonneg|]. rewrite dvec_len, HL. apply hv_box_ref; auto.
      intros p k Hp Hk. apply in_map_iff in Hp as (q & <- & Hq). apply in_map_iff in Hq as (q0 & <- & Hq0).
      pose proof (dvec_nth q0 k) as Q1. pose proof (dvec_nth ref k) as Q2. change (@nzero R _) with 0%R in Q1, Q2. unfold co. rewrite Q1, Q2.
      assert (H1 : okA (nth k ref nzero)) by (apply Hr, nth_In; lia).
      assert (H2 : okA (nth k q0 nzero)) by (apply (HO q0 Hq0), nth_In; rewrite (HR q0 Hq0); lia).
      destruct H1 as [_ H1], H2 as [_ H2]. lra. }
    split; auto. eapply Rle_trans; [apply V3; apply is_hv_iff; auto; apply rows_val; auto|].
    apply le_INR in HF. pose proof (pos_INR (length F)). pose proof (bpow_ge_0 radix2 (-52)).
    apply Rmult_le_compat; try lra; [apply Rmult_le_pos; lra|]. apply Rmult_le_compat_r; lra.
Qed.
Lemma sub_err (x y : double) : is_finite x = true -> is_finite y = true -> (Rabs (B2R x - B2R y) <= bpow radix2 1000)%R ->
  is_finite (nsub x y) = true /\ (Rabs (B2R (nsub x y) - (B2R x - B2R y)) <= bpow radix2 (-53) * Rabs (B2R x - B2R y))%R.
Proof.
  intros Hx Hy HB1. destruct (dminus_ok x y Hx Hy) as [P1 P2].
  { apply Rle_lt_trans with (bpow radix2 1000); [|apply bpow_lt; lia].
    apply abs_round_le_generic; [apply fexp_correct; reflexivity|apply valid_rnd_N| |auto].
    apply generic_format_bpow. unfold SpecFloat.fexp, SpecFloat.emin. lia. }
  split; auto. rewrite P2.
  destruct (FLT_plus_error_N_ex radix2 (-1074) 53 (fun x => negb (Z.even x)) (B2R x) (- B2R y)) as (eps & He & Er).
  { apply generic_format_B2R. } { apply generic_format_opp, generic_format_B2R. }
  assert (Er' : rnd (B2R x - B2R y) = ((B2R x + - B2R y) * (1 + eps))%R) by exact Er. rewrite Er'. unfold Rminus.
  replace ((B2R x + - B2R y) * (1 + eps) + - (B2R x + - B2R y))%R with (eps * (B2R x + - B2R y))%R by ring.
  rewrite Rabs_mult. apply Rmult_le_compat_r; [apply Rabs_pos|]. eapply Rle_trans; [exact He|].
  unfold u_ro. change (- (53) + 1)%Z with (-52)%Z. replace (/ 2 * bpow radix2 (-52))%R with (bpow radix2 (-53)).
  - pose proof (bpow_gt_0 radix2 (-53)). apply Rmult_le_reg_r with (1 + bpow radix2 (-53))%R; [lra|]. unfold Rdiv. rewrite Rmult_assoc, Rinv_l by lra. nra.
  - replace (/ 2)%R with (bpow radix2 (-1)) by reflexivity. rewrite <- bpow_plus. reflexivity.
Qed.
Hypothesis HB2 : (B <= bpow radix2 251)%R.
Definition mA : R := (- B)%R.
Lemma EA_impr y F ref : length ref = D -> length (y :: F) <= N -> rowsD (y :: F) ref -> okm okA (y :: F) -> okv okA ref ->
  rsim EA (hypervolume_improvement minus_1e308 argsort y F ref) (hypervolume_improvement mA stable_argsort (dvec y) (dmat F) (dvec ref)).
Proof.
  intros HL HFN HR HF Hr.
  destruct (abs_hv (y :: F) ref HL HFN HR HF Hr) as (v1 & A1 & A2 & A3 & A4).
  destruct (abs_hv F ref HL) as (v2 & B1 & B2 & B3 & B4); auto.
  { simpl in HFN. lia. } { intros p Hp. apply HR; simpl; auto. } { intros p Hp. apply HF; simpl; auto. }
  assert (HBD : (0 <= B ^ D <= bpow radix2 753)%R).
  { split; [apply pow_le; auto|]. apply Rle_trans with (bpow radix2 251 ^ D)%R; [apply pow_incr; split; auto|].
    assert (P1 : (1 <= bpow radix2 251)%R) by (change 1%R with (bpow radix2 0); apply bpow_le; lia).
    apply Rle_trans with (bpow radix2 251 ^ 3)%R; [apply Rle_pow; auto; lia|]. cbn [pow]. rewrite Rmult_1_r, <- !bpow_plus. apply bpow_le. lia. }
  assert (Hc : ((2 * INR N + 8) * bpow radix2 (-52) <= 1)%R).
  { apply Rle_trans with ((2 * bpow radix2 50 + 8) * bpow radix2 (-52))%R; [apply Rmult_le_compat_r; [apply bpow_ge_0|lra]|].
    change (bpow radix2 50) with (IZR (2 ^ 50)). change (bpow radix2 (-52)) with (/ IZR (2 ^ 52))%R.
    apply Rmult_le_reg_r with (IZR (2 ^ 52)); [apply IZR_lt; reflexivity|]. rewrite Rmult_assoc, Rinv_l, Rmult_1_r, Rmult_1_l; [|apply IZR_neq; discriminate].
    rewrite <- mult_IZR, <- plus_IZR. apply IZR_le. discriminate. }
  rewrite (hvi_ok mA stable_argsort stable_argsort_ok).
  - unfold hypervolume_improvement. rewrite A1, B1. cbn [bind rsim].
    change (dvec y :: dmat F) with (dmat (y :: F)).
    assert (Hmono : (HVof (dmat F) (dvec ref) <= HVof (dmat (y :: F)) (dvec ref))%R) by (apply hv_incl; intros p Hp; simpl; auto).
    set (w1 := HVof (dmat (y :: F)) (dvec ref)) in *. set (w2 := HVof (dmat F) (dvec ref)) in *.
    set (c := ((2 * INR N + 8) * bpow radix2 (-52))%R) in *.
    assert (Hcb : (c * B ^ D <= B ^ D)%R) by nra.
    assert (Hc0 : (0 <= c)%R) by (unfold c; apply Rmult_le_pos; [pose proof (pos_INR N); lra|apply bpow_ge_0]).
    apply Rcomplements.Rabs_le_between in A4, B4.
    assert (Hd : (Rabs (B2R v1 - B2R v2) <= 3 * B ^ D)%R) by (apply Rcomplements.Rabs_le_between; lra).
    destruct (sub_err v1 v2 A2 B2) as [P1 P2].
    { eapply Rle_trans; [exact Hd|]. apply Rle_trans with (bpow radix2 2 * bpow radix2 753)%R; [|rewrite <- bpow_plus; apply bpow_le; lia].
      change (bpow radix2 2) with 4%R. lra. }
    split; auto.
    assert (P3 : (Rabs (B2R (nsub v1 v2) - (B2R v1 - B2R v2)) <= 2 * bpow radix2 (-52) * B ^ D)%R).
    { eapply Rle_trans; [exact P2|]. replace (bpow radix2 (-52)) with (2 * bpow radix2 (-53))%R by (change 2%R with (bpow radix2 1); rewrite <- bpow_plus; reflexivity).
      pose proof (bpow_gt_0 radix2 (-53)). nra. }
    apply Rcomplements.Rabs_le_between in P3. apply Rcomplements.Rabs_le_between.
    replace delta with (2 * (c * B ^ D) + 2 * bpow radix2 (-52) * B ^ D)%R by (unfold delta, c; ring). lra.
  - split; [rewrite dvec_len; lia|]. split; [apply (rows_val (y :: F)); auto|]. split; [|left; rewrite dvec_len; lia].
    intros p k Hp _ Hk. change (dvec y :: dmat F) with (dmat (y :: F)) in Hp. apply in_map_iff in Hp as (q & <- & Hq).
    rewrite dvec_len in Hk. pose proof (dvec_nth q k) as Q1. pose proof (dvec_nth ref k) as Q2. change (@nzero R _) with 0%R in Q1, Q2. rewrite Q1, Q2. unfold mA.
    assert (H1 : okA (nth k ref nzero)) by (apply Hr, nth_In; auto).
    assert (H2 : okA (nth k q nzero)) by (apply (HF q Hq), nth_In; rewrite (HR q Hq); auto).
    destruct H1 as [_ H1], H2 as [_ H2]. lra.
Qed.
End Abs.

(** * From related lists to entries *)
Lemma F2_nth {A B} (S : A -> B -> Prop) a b d d' i : Forall2 S a b -> i < length a -> S (nth i a d) (nth i b d').
Proof. intros H. revert i. induction H as [|x y a b Hxy H IH]; intros [|i] Hi; simpl in *; try lia; auto. apply IH. lia. Qed.
Lemma F2_len {A B} (S : A -> B -> Prop) a b : Forall2 S a b -> length a = length b.
Proof. induction 1; simpl; auto. Qed.

(** * From the real theorems to doubles *)
From Verif Require Import HVDTop PropsHVD.
Open Scope nat_scope.
Section Lift.
Variables (minf : double) (argsort : list double -> list nat) (minr : R) (E : double -> R -> Prop).
Variables (Y : list (list double)) (ref : list double).
Hypothesis HY : Y <> [].
Hypothesis HR : forall p, In p Y -> length p = length ref.
Hypothesis Hin : inside (dmat Y) (dvec ref).
Hypothesis Hab : above_all minr (dmat Y) (dvec ref).

Lemma dmat_nonnil : dmat Y <> [].
Proof. destruct Y; [contradiction|discriminate]. Qed.
Lemma rowsR : rows_ok (dmat Y) (dvec ref).
Proof. apply rows_val; auto. Qed.
Lemma shape_has n m g : shape n m g -> has_shape n m g.
Proof. intros [H1 H2]. split; auto. intros i Hi. apply H2, nth_In. lia. Qed.

Lemma grad_of : 2 <= length ref <= 4 ->
  rsim (Forall2 (Forall2 E)) (compute_HVdY minf argsort (length ref) Y ref) (compute_HVdY minr stable_argsort (length ref) (dmat Y) (dvec ref)) ->
  exists g, compute_HVdY minf argsort (length ref) Y ref = Ok g /\ has_shape (length Y) (length ref) g /\
    forall i k, i < length Y -> k < length ref -> (exists s, E (nth k (nth i g []) d0) s) /\
      ((exists j, j < length Y /\ dominates (nth j (dmat Y) []) (nth i (dmat Y) [])) -> E (nth k (nth i g []) d0) 0%R) /\
      (no_tie (dmat Y) i k -> exists s, is_slope (dmat Y) (dvec ref) i k s /\ is_partial (dmat Y) (dvec ref) i k s /\ E (nth k (nth i g []) d0) s).
Proof.
  intros Hm HS. assert (L1 : length (dmat Y) = length Y) by apply map_length. assert (L2 : length (dvec ref) = length ref) by apply dvec_len.
  destruct (C07_full_gradient_ties minr stable_argsort (dmat Y) (dvec ref) stable_argsort_ok dmat_nonnil rowsR) as (g' & Eg & Sg & Hg); auto; [rewrite L2; auto|].
  rewrite L1, L2 in *. rewrite Eg in HS. destruct (compute_HVdY minf argsort (length ref) Y ref) as [g|] eqn:Ec; cbn [rsim] in HS; [|contradiction].
  exists g. split; auto. apply shape_has in Sg. destruct Sg as [S1 S2]. pose proof (F2_len _ _ _ HS) as Lg.
  assert (HS2 : forall i, i < length Y -> Forall2 E (nth i g []) (nth i g' [])) by (intros i Hi; apply F2_nth; auto; lia).
  assert (Lr : forall i, i < length Y -> length (nth i g []) = length ref) by (intros i Hi; rewrite (F2_len _ _ _ (HS2 i Hi)); auto).
  split; [split; auto; lia|]. intros i k Hi Hk. destruct (Hg i Hi) as [G1 G2].
  assert (He : E (nth k (nth i g []) d0) (coord g' i k)) by (apply F2_nth; auto; rewrite Lr; auto).
  split; [eauto|]. split.
  - intros Hd. replace 0%R with (coord g' i k); auto. unfold coord. rewrite (G1 Hd). apply nth_repeat.
  - intros Ht. destruct (G2 k Hk Ht) as (P1 & P2 & _). exists (coord g' i k). auto.
Qed.

Lemma hess_of : 2 <= length ref <= 5 -> general_position (dmat Y) (dvec ref) ->
  rsim (Forall2 (Forall2 (Forall2 (Forall2 E)))) (compute_HVdY2 minf argsort (length ref) Y ref) (compute_HVdY2 minr stable_argsort (length ref) (dmat Y) (dvec ref)) ->
  exists H, compute_HVdY2 minf argsort (length ref) Y ref = Ok H /\
    length H = length Y /\ (forall i, i < length Y -> length (nth i H []) = length ref /\
      forall k, k < length ref -> has_shape (length Y) (length ref) (nth k (nth i H []) [])) /\
    forall i k j l, i < length Y -> k < length ref -> j < length Y -> l < length ref ->
      exists s, is_hess (dmat Y) (dvec ref) i k j l s /\ E (nth l (nth j (nth k (nth i H []) []) []) d0) s.
Proof.
  intros Hm Hgp HS. assert (L1 : length (dmat Y) = length Y) by apply map_length. assert (L2 : length (dvec ref) = length ref) by apply dvec_len.
  destruct (C09_hessian_partial minr stable_argsort (dmat Y) (dvec ref) stable_argsort_ok dmat_nonnil rowsR) as (g' & Eg & S1 & S2 & Hg); auto; [rewrite L2; auto|].
  rewrite L1, L2 in *. rewrite Eg in HS. destruct (compute_HVdY2 minf argsort (length ref) Y ref) as [g|] eqn:Ec; cbn [rsim] in HS; [|contradiction].
  exists g. split; auto. pose proof (F2_len _ _ _ HS) as Lg.
  assert (H1 : forall i, i < length Y -> Forall2 (Forall2 (Forall2 E)) (nth i g []) (nth i g' [])) by (intros i Hi; apply F2_nth; auto; lia).
  assert (H2 : forall i, i < length Y -> length (nth i g []) = length ref) by (intros i Hi; rewrite (F2_len _ _ _ (H1 i Hi)); apply S2; auto).
  assert (H3 : forall i k, i < length Y -> k < length ref -> Forall2 (Forall2 E) (nth k (nth i g []) []) (nth k (nth i g' []) [])) by (intros i k Hi Hk; apply F2_nth; auto; rewrite H2; auto).
  assert (H4 : forall i k, i < length Y -> k < length ref -> length (nth k (nth i g []) []) = length Y).
  { intros i k Hi Hk. rewrite (F2_len _ _ _ (H3 i k Hi Hk)). destruct (S2 i Hi) as [_ S3]. apply S3; auto. }
  assert (H5 : forall i k j, i < length Y -> k < length ref -> j < length Y -> Forall2 E (nth j (nth k (nth i g []) []) []) (nth j (nth k (nth i g' []) []) [])).
  { intros i k j Hi Hk Hj. apply F2_nth; auto. rewrite H4; auto. }
  assert (H6 : forall i k j, i < length Y -> k < length ref -> j < length Y -> length (nth j (nth k (nth i g []) []) []) = length ref).
  { intros i k j Hi Hk Hj. rewrite (F2_len _ _ _ (H5 i k j Hi Hk Hj)). destruct (S2 i Hi) as [_ S3]. apply (shape_has _ _ _ (S3 k Hk)); auto. }
  split; [lia|]. split.
  { intros i Hi. split; auto. intros k Hk. split; auto. }
  intros i k j l Hi Hk Hj Hl. destruct (Hg i k j l Hi Hk Hj Hl) as [P _]. eexists. split; [exact P|]. apply F2_nth; auto. rewrite H6; auto.
Qed.
End Lift.
