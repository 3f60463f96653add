(** Side by side runs of the hypervolume algorithm: on doubles and on the real values of the
    same (shifted) points, for one, two and three objectives.  The links, the bounds and the
    branches taken agree; the accumulated numbers are related by relations given as
    parameters (instances in DblExact and DblErr). *)
From Coq Require Import ZArith Reals Lra List Arith Lia Bool Permutation Sorted.
From Flocq Require Import Core IEEE754.BinarySingleNaN.
From Verif Require Import Num Exn ListAux NDSSpec HVSpec HVModel HVLinks HVProof HVTop DblModel DblSpec DblNDS.
Import ListNotations.
Open Scope nat_scope.

Notation dR := (fun x : double => B2R x).

Definition rsim {A B} (RR : A -> B -> Prop) (r : res A) (r' : res B) : Prop :=
  match r, r' with
  | Ok a, Ok b => RR a b
  | Exn e, Exn e' => e = e'
  | _, _ => False
  end.
Lemma rsim_bind {A B A' B'} (RR : A -> A' -> Prop) (SS : B -> B' -> Prop) r r' k k' :
  rsim RR r r' -> (forall a a', RR a a' -> rsim SS (k a) (k' a')) -> rsim SS (bind r k) (bind r' k').
Proof. destruct r, r'; simpl; auto; try tauto. Qed.
Lemma rsim_impl {A B} (RR SS : A -> B -> Prop) r r' : (forall a b, RR a b -> SS a b) -> rsim RR r r' -> rsim SS r r'.
Proof. destruct r, r'; simpl; auto. Qed.

Lemma fin_nan (x : double) : is_finite x = true -> isnan x = false.
Proof. destruct x; simpl; auto; discriminate. Qed.
Lemma fin_ltb (x y : double) : is_finite x = true -> is_finite y = true -> nltb x y = nltb (B2R x) (B2R y).
Proof.
  intros Hx Hy. unfold nltb; simpl. rewrite dval_ltb by auto using fin_nan. rewrite !dval_finite by auto. reflexivity.
Qed.
Lemma fin_leb (x y : double) : is_finite x = true -> is_finite y = true -> nleb x y = nleb (B2R x) (B2R y).
Proof. intros Hx Hy. unfold nleb. rewrite fin_ltb; auto. Qed.

Lemma hv_rec2 {T} `{Num T} (pts : list (list T)) fuel length1 (m : @mem T) :
  hv_recursive pts fuel 2 length1 m =
  if length1 =? 0 then Ok (nzero, m) else
        do m0 <- reset_ignore pts fuel 2 (pv m 2 (length pts)) m;
        do r <- removal_loop pts 2 length1 (length pts) (pv m0 2 (length pts)) m0;
        let '(p, q, length2, m1) := r in
        do cq <- cg pts q 2;
        let qp := pv m1 2 q in
        do hm <- (if Nat.ltb 1 length2 then
                    do cqp <- cg pts qp 2;
                    Ok (nadd (vo m1 2 qp) (nmul (ar m1 2 qp) (nsub cq cqp)), m1)
                  else do m2 <- singleton_area pts 2 q m1; Ok (nzero, m2));
        let '(hvol, m2) := hm in
        let m3 := set_vo m2 2 q hvol in
        do m4 <- area_step (hv_recursive pts fuel 1) 2 q length2 m3;
        do r2 <- reinsertion_loop pts (hv_recursive pts fuel 1) fuel 2 p q length2 hvol m4;
        let '(ql, hv, m5) := r2 in
        do cl <- cg pts ql 2;
        Ok (nsub hv (nmul (ar m5 2 ql) cl), m5).
Proof. reflexivity. Qed.

Section Sim.
Variable pts : list (list double).
Notation n := (length pts).
Notation pts' := (map (map dR) pts).
Variable K : double -> Prop.
Hypothesis HKf : forall x, K x -> is_finite x = true.
Hypothesis HKn : forall x, K x -> (B2R x <= 0)%R.
Hypothesis HK : forall p x, In p pts -> In x p -> K x.

Definition cD (x i : nat) : double := nth i (nth x pts []) d0.

Definition Rcg (x i : nat) (v : double) (v' : R) : Prop :=
  v = cD x i /\ v' = B2R v /\ x < n /\ K v.

Lemma len' : length pts' = n.
Proof. apply map_length. Qed.

Lemma cg_sim x i : rsim (Rcg x i) (cg pts x i) (cg pts' x i).
Proof.
  unfold cg. rewrite nth_error_map. destruct (nth_error pts x) as [p|] eqn:E; simpl; [|reflexivity].
  rewrite nth_error_map. destruct (nth_error p i) as [v|] eqn:Ev; simpl; [|reflexivity].
  split; [unfold cD; rewrite (nth_error_nth pts x [] E), (nth_error_nth p i d0 Ev); reflexivity|].
  split; [reflexivity|]. split; [apply nth_error_Some; congruence|].
  apply (HK p); eapply nth_error_In; eauto.
Qed.

(** links equal, bounds equal *)
Definition mr (m : @mem double) (m' : @mem R) : Prop :=
  nx m = nx m' /\ pv m = pv m' /\ (forall i, is_finite (bd m i) = true /\ bd m' i = B2R (bd m i)).

Lemma mr_set_bd m m' i v : mr m m' -> is_finite v = true -> mr (set_bd m i v) (set_bd m' i (B2R v)).
Proof.
  intros (H1 & H2 & H3) Hv. split; [exact H1|]. split; [exact H2|]. intros j. simpl. unfold upd1.
  destruct (j =? i); [auto|apply H3].
Qed.
Lemma mr_set_nx m m' i x a : mr m m' -> mr (set_nx m i x a) (set_nx m' i x a).
Proof. intros (H1 & H2 & H3). split; [simpl; rewrite H1; auto|]. split; auto. Qed.
Lemma mr_set_pv m m' i x a : mr m m' -> mr (set_pv m i x a) (set_pv m' i x a).
Proof. intros (H1 & H2 & H3). split; [auto|]. split; [simpl; rewrite H2; auto|]. auto. Qed.

(** what [remove] and [reinsert] leave alone *)
Definition frame {T} (m m1 : @mem T) : Prop :=
  ig m1 = ig m /\ nx m1 2 = nx m 2 /\ pv m1 2 = pv m 2 /\ bd m1 2 = bd m 2 /\ ar m1 2 = ar m 2.
Lemma frame_refl {T} (m : @mem T) : frame m m.
Proof. repeat split. Qed.
Lemma frame_trans {T} (a b c : @mem T) : frame a b -> frame b c -> frame a c.
Proof. intros (A1 & A2 & A3 & A4 & A5) (B1 & B2 & B3 & B4 & B5). repeat split; etransitivity; eauto. Qed.

(** the links of list 1 never point downwards in coordinate 1 *)
Definition SL (N P : nat -> nat) : Prop :=
  forall x, x < n -> (N x < n -> (B2R (cD x 1) <= B2R (cD (N x) 1))%R) /\
                     (P x < n -> (B2R (cD (P x) 1) <= B2R (cD x 1))%R).

Definition St (m0 : @mem double) (m0' : @mem R) (m : @mem double) (m' : @mem R) : Prop :=
  mr m m' /\ SL (nx m' 1) (pv m' 1) /\ frame m0 m /\ frame m0' m'.

Lemma lower_sim m0 m0' m m' i x : i < 2 -> x < n -> St m0 m0' m m' ->
  rsim (St m0 m0') (lower_bd pts m i x) (lower_bd pts' m' i x).
Proof.
  intros Hi Hx (Hm & Hs & Hf & Hf'). unfold lower_bd. eapply rsim_bind; [apply cg_sim|].
  intros v v' (E1 & -> & _ & Hv). simpl. destruct Hm as (M1 & M2 & M3). destruct (M3 i) as [B1 B2].
  rewrite B2, <- fin_ltb by auto. destruct (nltb v (bd m i)).
  - split; [apply mr_set_bd; [repeat split; auto; apply M3|auto]|]. split; [exact Hs|].
    split; [eapply frame_trans; [exact Hf|]|eapply frame_trans; [exact Hf'|]];
      (repeat split; simpl; unfold upd1; destruct i as [|[|i]]; auto; lia).
  - split; [repeat split; auto; apply M3|]. auto.
Qed.

Lemma SL_remove N P x : x < n -> SL N P -> SL (upd1 N (P x) (N x)) (upd1 P (N x) (P x)).
Proof.
  intros Hx H y Hy. destruct (H x Hx) as [X1 X2]. destruct (H y Hy) as [Y1 Y2]. unfold upd1. split; intros Hl.
  - destruct (Nat.eqb_spec y (P x)) as [->|]; auto. specialize (X1 Hl). specialize (X2 Hy). lra.
  - destruct (Nat.eqb_spec y (N x)) as [->|]; auto. specialize (X2 Hl). specialize (X1 Hy). lra.
Qed.
Lemma SL_reinsert N P x (N1 := upd1 N (P x) x) : x < n -> SL N P -> SL N1 (upd1 P (N1 x) x).
Proof.
  intros Hx H y Hy. destruct (H x Hx) as [X1 X2]. destruct (H y Hy) as [Y1 Y2]. split; intros Hl.
  - unfold N1, upd1 in *. destruct (Nat.eqb_spec y (P x)) as [->|]; auto.
  - unfold upd1 at 1. unfold upd1 at 1 in Hl. destruct (Nat.eqb_spec y (N1 x)) as [->|]; auto.
    unfold N1, upd1 in *. destruct (Nat.eqb_spec x (P x)) as [E|]; [lra|]. auto.
Qed.

Lemma SL_ext N P N' P' : (forall x, N x = N' x) -> (forall x, P x = P' x) -> SL N P -> SL N' P'.
Proof. intros E1 E2 H x Hx. rewrite <- E1, <- E2. auto. Qed.

Lemma remove_one_sim m0 m0' m m' i x : i < 2 -> St m0 m0' m m' ->
  rsim (St m0 m0') (remove_one pts x i m) (remove_one pts' x i m').
Proof.
  intros Hi HSt. destruct (lt_dec x n) as [Hx|Hx].
  - unfold remove_one. apply lower_sim; auto. destruct HSt as (Hm & Hs & Hf & Hf').
    destruct Hm as (M1 & M2 & M3). rewrite M1, M2.
    split; [apply mr_set_pv, mr_set_nx; repeat split; auto; apply M3|]. split.
    + destruct i as [|[|i]]; [exact Hs| |lia].
      eapply SL_ext; [| |apply (SL_remove _ _ x Hx Hs)]; intros y; reflexivity.
    + split; [eapply frame_trans; [exact Hf|]|eapply frame_trans; [exact Hf'|]];
        (repeat split; simpl; unfold upd2; destruct i as [|[|i]]; auto; lia).
  - unfold remove_one, lower_bd, cg. rewrite nth_error_map.
    assert (E : nth_error pts x = None) by (apply nth_error_None; lia). rewrite E. reflexivity.
Qed.
Lemma reinsert_one_sim m0 m0' m m' i x : i < 2 -> St m0 m0' m m' ->
  rsim (St m0 m0') (reinsert_one pts x i m) (reinsert_one pts' x i m').
Proof.
  intros Hi HSt. destruct (lt_dec x n) as [Hx|Hx].
  - unfold reinsert_one. apply lower_sim; auto. destruct HSt as (Hm & Hs & Hf & Hf').
    destruct Hm as (M1 & M2 & M3). cbn [nx pv set_nx]. rewrite M1, M2.
    split; [apply mr_set_pv, mr_set_nx; repeat split; auto; apply M3|]. split.
    + destruct i as [|[|i]]; [exact Hs| |lia].
      eapply SL_ext; [| |apply (SL_reinsert _ _ x Hx Hs)]; intros y; reflexivity.
    + split; [eapply frame_trans; [exact Hf|]|eapply frame_trans; [exact Hf'|]];
        (repeat split; simpl; unfold upd2; destruct i as [|[|i]]; auto; lia).
  - unfold reinsert_one, lower_bd, cg. rewrite nth_error_map.
    assert (E : nth_error pts x = None) by (apply nth_error_None; lia). rewrite E. reflexivity.
Qed.
Lemma remove_sim m0 m0' m m' x : St m0 m0' m m' -> rsim (St m0 m0') (remove pts x 2 m) (remove pts' x 2 m').
Proof.
  intros HSt. unfold remove. cbn [seq for_lists].
  eapply rsim_bind; [apply remove_one_sim; [lia|eassumption]|]. intros m1 m1' H1.
  eapply rsim_bind; [apply remove_one_sim; [lia|eassumption]|]. auto.
Qed.
Lemma reinsert_sim m0 m0' m m' x : St m0 m0' m m' -> rsim (St m0 m0') (reinsert pts x 2 m) (reinsert pts' x 2 m').
Proof.
  intros HSt. unfold reinsert. cbn [seq for_lists].
  eapply rsim_bind; [apply reinsert_one_sim; [lia|eassumption]|]. intros m1 m1' H1.
  eapply rsim_bind; [apply reinsert_one_sim; [lia|eassumption]|]. auto.
Qed.

(** * The sweep in two dimensions *)
Variable A0 : nat -> double -> R -> Prop.
Hypothesis A0_0 : A0 0 d0 0%R.
Hypothesis A0_mono : forall k v v', A0 k v v' -> A0 (S k) v v'.
Hypothesis A0_step : forall k v v' h q p, (S k <= S n) -> A0 k v v' -> K h -> K q -> K p -> (B2R q <= B2R p)%R ->
  A0 (S k) (nadd v (nmul h (nsub q p))) (v' + B2R h * (B2R q - B2R p))%R.
Hypothesis A0_last : forall k v v' h q, (S k <= S n) -> A0 k v v' -> K h -> K q ->
  A0 (S k) (nadd v (nmul h q)) (v' + B2R h * B2R q)%R.

Lemma A0_le k j v v' : k <= j -> A0 k v v' -> A0 j v v'.
Proof. induction 1; auto. Qed.

Lemma sweep2_sim (m : @mem double) (m' : @mem R) fuel : nx m = nx m' -> SL (nx m' 1) (pv m' 1) ->
  forall k q p h v v', k + fuel <= S n -> K h -> A0 k v v' ->
  (q < n -> p < n -> (B2R (cD q 1) <= B2R (cD p 1))%R) ->
  rsim (A0 (k + fuel)) (sweep2 pts fuel m q p h v) (sweep2 pts' fuel m' q p (B2R h) v').
Proof.
  intros Hn Hs. induction fuel as [|fuel IH]; intros k q p h v v' Hk Hh Hv Hqp; [reflexivity|].
  cbn [sweep2]. rewrite len'. destruct (p =? n) eqn:Ep.
  - eapply rsim_bind; [apply cg_sim|]. intros q1 q1' (_ & -> & _ & Hq). simpl.
    apply (A0_le (S k)); [lia|]. apply A0_last; auto; lia.
  - eapply rsim_bind; [apply cg_sim|]. intros q1 q1' (Eq1 & -> & Hqn & Hq).
    eapply rsim_bind; [apply cg_sim|]. intros p1 p1' (Ep1 & -> & Hpn & Hp).
    eapply rsim_bind; [apply cg_sim|]. intros p0 p0' (_ & -> & _ & Hp0).
    rewrite <- fin_ltb by auto.
    replace (k + S fuel) with (S k + fuel) by lia.
    replace (if nltb p0 h then B2R p0 else B2R h) with (B2R (if nltb p0 h then p0 else h)) by (destruct (nltb p0 h); auto).
    rewrite Hn. apply IH; [lia|destruct (nltb p0 h); auto| |].
    + apply A0_step; auto; [lia|]. subst q1 p1. auto.
    + intros _ Hl. apply (Hs p Hpn). exact Hl.
Qed.

Lemma level1_sim (m : @mem double) (m' : @mem R) len : nx m = nx m' -> SL (nx m' 1) (pv m' 1) ->
  rsim (fun r r' => A0 (S n) (fst r) (fst r') /\ snd r = m /\ snd r' = m')
    (hv_recursive pts (S n) 1 len m) (hv_recursive pts' (S n) 1 len m').
Proof.
  intros Hn Hs. cbn [hv_recursive Nat.eqb]. destruct (len =? 0).
  - simpl. split; [apply (A0_le 0); [lia|exact A0_0]|auto].
  - rewrite len', Hn. eapply rsim_bind; [apply cg_sim|]. intros h h' (_ & -> & Hq & Hh).
    eapply rsim_bind.
    + apply (sweep2_sim m m' (S n) Hn Hs 0); auto. intros _ Hl. apply (Hs _ Hq). exact Hl.
    + intros v v' Hv. simpl. auto.
Qed.

(** the areas are bounded by the square of the largest coordinate *)
Variable W : R.
Hypothesis HKW : forall x, K x -> (- W <= B2R x)%R.
Lemma sweep2_bound (m' : @mem R) fuel : SL (nx m' 1) (pv m' 1) ->
  forall q h v r, q < n -> K h -> sweep2 pts' fuel m' q (nx m' 1 q) (B2R h) v = Ok r ->
  K (cD q 1) -> (r <= v + W * - B2R (cD q 1))%R.
Proof.
  intros Hs. induction fuel as [|fuel IH]; intros q h v r Hq Hh E Kq; [discriminate|].
  cbn [sweep2] in E. rewrite len' in E.
  pose proof (cg_sim q 1) as Cq. destruct (cg pts' q 1) as [q1|] eqn:Eq; [|destruct (nx m' 1 q =? n); discriminate].
  destruct (cg pts q 1) as [dq|]; [|destruct Cq]. destruct Cq as (-> & -> & _ & _).
  pose proof (HKn _ Hh) as Hh0. pose proof (HKW _ Hh) as HhW. pose proof (HKn _ Kq) as Hq0.
  destruct (Nat.eqb_spec (nx m' 1 q) n) as [En|En]; cbn [bind] in E.
  - injection E as <-. unfold nadd, nmul; simpl. nra.
  - pose proof (cg_sim (nx m' 1 q) 1) as C1. destruct (cg pts' (nx m' 1 q) 1) as [p1|]; [|discriminate].
    destruct (cg pts (nx m' 1 q) 1) as [dp1|]; [|destruct C1]. destruct C1 as (-> & -> & Hp & Kp).
    pose proof (cg_sim (nx m' 1 q) 0) as C0. destruct (cg pts' (nx m' 1 q) 0) as [p0|]; [|discriminate].
    destruct (cg pts (nx m' 1 q) 0) as [dp0|]; [|destruct C0]. destruct C0 as (-> & -> & _ & Kp0).
    cbn [bind] in E. rewrite <- fin_ltb in E by auto.
    replace (if nltb (cD (nx m' 1 q) 0) h then B2R (cD (nx m' 1 q) 0) else B2R h)
      with (B2R (if nltb (cD (nx m' 1 q) 0) h then cD (nx m' 1 q) 0 else h)) in E by (destruct (nltb _ h); auto).
    apply IH in E; auto; [|destruct (nltb _ h); auto].
    unfold nadd, nmul, nsub in E; simpl in E. destruct (Hs q Hq) as [Hs1 _]. specialize (Hs1 Hp). nra.
Qed.
Definition A1 (a : double) (a' : R) : Prop := A0 (S n) a a' /\ (a' <= W * W)%R.
Lemma level1_sim_bound (m : @mem double) (m' : @mem R) len : nx m = nx m' -> SL (nx m' 1) (pv m' 1) ->
  rsim (fun r r' => A1 (fst r) (fst r') /\ snd r = m /\ snd r' = m')
    (hv_recursive pts (S n) 1 len m) (hv_recursive pts' (S n) 1 len m').
Proof.
  intros Hn Hs. pose proof (level1_sim m m' len Hn Hs) as H.
  destruct (hv_recursive pts (S n) 1 len m) as [[a m1]|]; destruct (hv_recursive pts' (S n) 1 len m') as [[a' m1']|] eqn:E;
    try exact H.
  destruct H as (H1 & H2 & H3). cbn [fst snd rsim] in *. split; [|auto]. split; [exact H1|].
  assert (W0 : (0 <= W * W)%R) by nra.
  cbn [hv_recursive Nat.eqb] in E. destruct (len =? 0).
  - injection E as <- _. exact W0.
  - rewrite len' in E. pose proof (cg_sim (nx m' 1 n) 0) as C0. destruct (cg pts' (nx m' 1 n) 0) as [h|]; [|discriminate].
    destruct (cg pts (nx m' 1 n) 0) as [dh|]; [|destruct C0]. destruct C0 as (-> & -> & Hq & Kh). cbn [bind] in E.
    destruct (sweep2 _ _ _ _ _ _ _) as [v|] eqn:Ev; [|discriminate]. cbn [bind] in E. injection E as <- _.
    assert (Kq : K (cD (nx m' 1 n) 1)).
    { pose proof (cg_sim (nx m' 1 n) 1) as C1. cbn [sweep2] in Ev.
      destruct (cg pts' (nx m' 1 n) 1) as [q1|]; [|destruct (_ =? _); discriminate].
      destruct (cg pts (nx m' 1 n) 1); [|destruct C1]. destruct C1 as (-> & _ & _ & Kq). exact Kq. }
    apply sweep2_bound in Ev; auto. pose proof (HKn _ Kq). pose proof (HKW _ Kq).
    change (@nzero R _) with 0%R in Ev. nra.
Qed.

(** * Three dimensions *)
Variable B : nat -> double -> R -> Prop.
Hypothesis B_0 : B 0 d0 0%R.
Hypothesis B_step : forall k v v' a a' q p, S k <= n -> B k v v' -> A1 a a' -> K q -> K p -> (B2R q <= B2R p)%R ->
  B (S k) (nadd v (nmul a (nsub p q))) (v' + a' * (B2R p - B2R q))%R.
Hypothesis B_last : forall k v v' a a' q, S k <= n -> B k v v' -> A1 a a' -> K q ->
  B (S k) (nsub v (nmul a q)) (v' - a' * B2R q)%R.

Variable L : list nat.
Variables (m0 : @mem double) (m0' : @mem R).
Hypothesis HL : Rep (nx m0' 2) (pv m0' 2) n L.
Hypothesis HLp : Permutation L (seq 0 n).
Hypothesis HLs : StronglySorted (fun a b => (B2R (cD a 2) <= B2R (cD b 2))%R) L.
Hypothesis Hrow : forall x, x < n -> length (nth x pts []) = 3.
Variable minf : double.
Hypothesis Hminf : forall x, x < n -> nltb minf (cD x 2) = true.

Lemma L_lt x : In x L -> x < n.
Proof. intros H. apply (Permutation_in _ HLp) in H. apply in_seq in H. lia. Qed.
Lemma L_nx a x v : L = a ++ x :: v -> nx m0' 2 x = hd n v.
Proof. intros E. eapply Rep_nx. rewrite E in HL. exact HL. Qed.
Lemma L_pv a x v : L = a ++ x :: v -> pv m0' 2 x = last a n.
Proof. intros E. eapply Rep_pv. rewrite E in HL. exact HL. Qed.

Lemma cg_ok x i : x < n -> i < 3 -> cg pts x i = Ok (cD x i) /\ cg pts' x i = Ok (B2R (cD x i)) /\ K (cD x i).
Proof.
  intros Hx Hi. pose proof (cg_sim x i) as H. unfold cg in *.
  destruct (nth_error pts x) as [p|] eqn:E; [|apply nth_error_None in E; lia].
  assert (Ep : nth x pts [] = p) by (eapply nth_error_nth; eauto).
  destruct (nth_error p i) as [v|] eqn:Ev; [|apply nth_error_None in Ev; specialize (Hrow x Hx); rewrite Ep in Hrow; lia].
  destruct (match nth_error pts' x with Some c0 => match nth_error c0 i with Some v0 => Ok v0 | None => Exn IndexError end | None => Exn TypeError end) as [v'|]; [|destruct H].
  destruct H as (-> & -> & _ & Hv). auto.
Qed.

Definition igz {T} (m : @mem T) : Prop := forall x, ig m x = 0.

(** the links of list 2 are those of [m0'] all along *)
Definition L2 (m' : @mem R) : Prop := nx m' 2 = nx m0' 2 /\ pv m' 2 = pv m0' 2.

Lemma reset_sim fuel : forall q m m', mr m m' -> SL (nx m' 1) (pv m' 1) -> L2 m' -> igz m -> igz m' -> bd m 2 = minf ->
  rsim (fun a a' => mr a a' /\ SL (nx a' 1) (pv a' 1) /\ L2 a' /\ igz a /\ igz a' /\ bd a 2 = minf)
    (reset_ignore pts fuel 2 q m) (reset_ignore pts' fuel 2 q m').
Proof.
  induction fuel as [|fuel IH]; intros q m m' H1 H2 H3 H4 H5 H6; [reflexivity|]. cbn [reset_ignore]. rewrite len'.
  destruct (q =? n); [simpl; auto 10|].
  rewrite H4, H5. cbn [Nat.ltb Nat.leb].
  replace (pv (set_ig m q 0) 2 q) with (pv (set_ig m' q 0) 2 q) by (simpl; destruct H1 as (_ & -> & _); auto).
  apply IH; auto; intros x; simpl; unfold upd1; destruct (x =? q); auto.
Qed.

Lemma removal_sim : forall a q v m m', L = a ++ q :: v -> mr m m' -> SL (nx m' 1) (pv m' 1) -> L2 m' ->
  igz m -> igz m' -> bd m 2 = minf ->
  rsim (fun r r' => exists q0 v0 m1 m1', L = q0 :: v0 /\ r = (hd n v0, q0, 1, m1) /\ r' = (hd n v0, q0, 1, m1') /\
      mr m1 m1' /\ SL (nx m1' 1) (pv m1' 1) /\ L2 m1' /\ igz m1 /\ igz m1')
    (removal_loop pts 2 (S (length a)) (hd n v) q m) (removal_loop pts' 2 (S (length a)) (hd n v) q m').
Proof.
  intros a. induction a as [|x a IH] using rev_ind; intros q v m m' E H1 H2 H3 H4 H5 H6.
  - cbn [removal_loop length Nat.leb]. simpl. exists q, v, m, m'. auto 10.
  - rewrite app_length. cbn [length]. rewrite Nat.add_1_r. cbn [removal_loop Nat.leb].
    assert (Hq : q < n) by (apply L_lt; rewrite E; apply in_or_app; simpl; auto).
    destruct (cg_ok q 2 Hq ltac:(lia)) as (C1 & C2 & C3). rewrite C1, C2. cbn [bind].
    destruct H1 as (M1 & M2 & M3). destruct (M3 2) as [F1 F2].
    rewrite F2, <- fin_ltb by auto. rewrite H6, (Hminf q Hq). cbn [bind].
    assert (HSt : St m m' m m').
    { split; [repeat split; auto; apply M3|]. split; auto. split; apply frame_refl. }
    eapply rsim_bind; [apply remove_sim; exact HSt|].
    intros m1 m1' (N1 & N2 & N3 & N4).
    assert (Epv : pv m1 2 q = x /\ pv m1' 2 q = x).
    { assert (pv m1' 2 q = x).
      { destruct N4 as (_ & _ & -> & _). destruct H3 as [_ ->]. rewrite (L_pv _ _ _ E). apply last_last. }
      split; auto. destruct N1 as (_ & -> & _). auto. }
    destruct Epv as [-> ->].
    change q with (hd n (q :: v)) at 1 3. apply IH; auto.
    + rewrite E, <- app_assoc. reflexivity.
    + destruct N4 as (_ & N41 & N42 & _). unfold L2. rewrite N41, N42. exact H3.
    + intros y. destruct N3 as (-> & _). apply H4.
    + intros y. destruct N4 as (-> & _). apply H5.
    + destruct N3 as (_ & _ & _ & -> & _). exact H6.
Qed.

Lemma assign_frame {T} (vals : list T) : forall (m : @mem T) q i,
  nx (assign_area m q i vals) = nx m /\ pv (assign_area m q i vals) = pv m /\
  ig (assign_area m q i vals) = ig m /\ bd (assign_area m q i vals) = bd m.
Proof. induction vals as [|v vals IH]; intros m q i; simpl; auto. destruct (IH (set_ar m i q v) q (S i)) as (-> & -> & -> & ->). auto. Qed.

Lemma singleton_sim m m' q : q < n -> exists m2 m2',
  singleton_area pts 2 q m = Ok m2 /\ singleton_area pts' 2 q m' = Ok m2' /\
  (nx m2 = nx m /\ pv m2 = pv m /\ ig m2 = ig m /\ bd m2 = bd m) /\
  (nx m2' = nx m' /\ pv m2' = pv m' /\ ig m2' = ig m' /\ bd m2' = bd m').
Proof.
  intros Hq. unfold singleton_area. cbn [seq map_res].
  destruct (cg_ok q 0 Hq ltac:(lia)) as (-> & -> & _). destruct (cg_ok q 1 Hq ltac:(lia)) as (-> & -> & _).
  cbn [bind]. eexists. eexists. split; [reflexivity|]. split; [reflexivity|].
  split; [exact (assign_frame _ (set_ar m 0 q none_) q 1)|exact (assign_frame _ (set_ar m' 0 q none_) q 1)].
Qed.

Definition ext_ig {T} (q : nat) (m m1 : @mem T) : Prop := forall x, x <> q -> ig m1 x = ig m x.

Lemma area_sim m m' q len : ig m q = 0 -> ig m' q = 0 -> mr m m' -> SL (nx m' 1) (pv m' 1) -> L2 m' ->
  rsim (fun a a' => mr a a' /\ SL (nx a' 1) (pv a' 1) /\ L2 a' /\ ext_ig q m a /\ ext_ig q m' a' /\
          A1 (ar a 2 q) (ar a' 2 q))
    (area_step (hv_recursive pts (S n) 1) 2 q len m) (area_step (hv_recursive pts' (S n) 1) 2 q len m').
Proof.
  intros I1 I2 H1 H2 H3. unfold area_step. rewrite I1, I2. cbn [Nat.leb].
  eapply rsim_bind; [apply level1_sim_bound; [apply H1|auto]|].
  intros [a m1] [a' m1']. cbn [fst snd]. intros (Ha & -> & ->). simpl.
  assert (E1 : forall (b : bool), mr (if b then set_ig (set_ar m 2 q a) q 2 else set_ar m 2 q a) m').
  { intros []; exact H1. }
  assert (Q : forall b b' : bool,
    mr (if b then set_ig (set_ar m 2 q a) q 2 else set_ar m 2 q a) (if b' then set_ig (set_ar m' 2 q a') q 2 else set_ar m' 2 q a') /\
    SL (nx (if b' then set_ig (set_ar m' 2 q a') q 2 else set_ar m' 2 q a') 1) (pv (if b' then set_ig (set_ar m' 2 q a') q 2 else set_ar m' 2 q a') 1) /\
    L2 (if b' then set_ig (set_ar m' 2 q a') q 2 else set_ar m' 2 q a') /\
    ext_ig q m (if b then set_ig (set_ar m 2 q a) q 2 else set_ar m 2 q a) /\
    ext_ig q m' (if b' then set_ig (set_ar m' 2 q a') q 2 else set_ar m' 2 q a') /\
    A1 (ar (if b then set_ig (set_ar m 2 q a) q 2 else set_ar m 2 q a) 2 q)
             (ar (if b' then set_ig (set_ar m' 2 q a') q 2 else set_ar m' 2 q a') 2 q)).
  { intros b b'. split; [destruct b, b'; exact H1|]. split; [destruct b'; exact H2|]. split; [destruct b'; exact H3|].
    split; [|split].
    - intros x Hx. destruct b; simpl; auto. unfold upd1. apply Nat.eqb_neq in Hx. rewrite Hx. auto.
    - intros x Hx. destruct b'; simpl; auto. unfold upd1. apply Nat.eqb_neq in Hx. rewrite Hx. auto.
    - destruct b, b'; simpl; unfold upd2; rewrite !Nat.eqb_refl; exact Ha. }
  apply Q.
Qed.

Lemma reinsertion_sim : forall v a q k len m m' hv hv' fuel, L = a ++ q :: v -> length v < fuel -> k + length v < n ->
  mr m m' -> SL (nx m' 1) (pv m' 1) -> L2 m' -> (forall x, In x v -> ig m x = 0 /\ ig m' x = 0) ->
  A1 (ar m 2 q) (ar m' 2 q) -> B k hv hv' ->
  rsim (fun r r' => exists ql w w' m5 m5', r = (ql, w, m5) /\ r' = (ql, w', m5') /\ ql < n /\
      A1 (ar m5 2 ql) (ar m5' 2 ql) /\ B (k + length v) w w')
    (reinsertion_loop pts (hv_recursive pts (S n) 1) fuel 2 (hd n v) q len hv m)
    (reinsertion_loop pts' (hv_recursive pts' (S n) 1) fuel 2 (hd n v) q len hv' m').
Proof.
  induction v as [|x v IH]; intros a q k len m m' hv hv' fuel E Hf Hk H1 H2 H3 H4 H5 H6;
    (destruct fuel as [|fuel]; [simpl in Hf; lia|]); cbn [reinsertion_loop hd]; rewrite len'.
  - rewrite Nat.eqb_refl. simpl. exists q, hv, hv', m, m'. rewrite Nat.add_0_r.
    repeat (split; auto). apply L_lt. rewrite E. apply in_or_app; simpl; auto.
  - assert (Hq : q < n) by (apply L_lt; rewrite E; apply in_or_app; simpl; auto).
    assert (Hx : x < n) by (apply L_lt; rewrite E; apply in_or_app; simpl; auto).
    destruct (Nat.eqb_spec x n) as [|_]; [lia|].
    destruct (cg_ok x 2 Hx ltac:(lia)) as (-> & -> & Cx). destruct (cg_ok q 2 Hq ltac:(lia)) as (-> & -> & Cq). cbn [bind].
    assert (Hle : (B2R (cD q 2) <= B2R (cD x 2))%R).
    { assert (HLs' := HLs). rewrite E in HLs'. clear -HLs'. induction a as [|y a IHa]; simpl in HLs'.
      - inversion HLs' as [|? ? ? F]; subst. inversion F; auto.
      - inversion HLs'; subst. apply IHa; auto. }
    set (mb := set_bd m 2 (cD x 2)). set (mb' := set_bd m' 2 (B2R (cD x 2))).
    assert (HSt : St mb mb' mb mb').
    { split; [apply mr_set_bd; auto|]. split; [exact H2|]. split; apply frame_refl. }
    eapply rsim_bind; [apply (reinsert_sim mb mb' mb mb' x HSt)|].
    intros m2 m2' (N1 & N2 & N3 & N4).
    assert (NL : L2 m2') by (destruct N4 as (_ & N41 & N42 & _); unfold L2; rewrite N41, N42; exact H3).
    assert (Hnd : ~ In x v).
    { assert (HNd : NoDup L) by (apply (Permutation_NoDup (Permutation_sym HLp)), seq_NoDup).
      rewrite E in HNd. apply NoDup_remove_1 in HNd. apply NoDup_remove_2 in HNd. intros Hin. apply HNd. apply in_or_app; auto. }
    assert (Enx : nx m2 2 x = hd n v /\ nx m2' 2 x = hd n v).
    { assert (nx m2' 2 x = hd n v).
      { destruct NL as [-> _]. apply (L_nx (a ++ [q]) x v). rewrite E, <- app_assoc. reflexivity. }
      split; auto. destruct N1 as (-> & _). auto. }
    destruct Enx as [-> ->].
    set (hv1 := nadd hv (nmul (ar m 2 q) (nsub (cD x 2) (cD q 2)))).
    set (hv1' := nadd hv' (nmul (ar m' 2 q) (nsub (B2R (cD x 2)) (B2R (cD q 2))))).
    assert (HB : B (S k) hv1 hv1') by (apply B_step; auto; simpl in Hk; lia).
    destruct (H4 x (or_introl eq_refl)) as [Ix Ix'].
    eapply rsim_bind.
    { apply (area_sim (set_vo m2 2 x hv1) (set_vo m2' 2 x hv1') x (S len)); auto.
      - destruct N3 as (N3 & _). simpl. rewrite N3. exact Ix.
      - destruct N4 as (N4 & _). simpl. rewrite N4. exact Ix'. }
    intros m4 m4' (P1 & P2 & P3 & P4 & P5 & P6).
    eapply rsim_impl; [|apply (IH (a ++ [q]) x (S k)); auto].
    + intros r r' (ql & w & w' & m5 & m5' & Q). exists ql, w, w', m5, m5'.
      replace (k + length (x :: v)) with (S k + length v) by (simpl; lia). exact Q.
    + rewrite E, <- app_assoc. reflexivity.
    + simpl in Hf. lia.
    + simpl in Hk. lia.
    + intros y Hy. assert (y <> x) by congruence. rewrite P4, P5 by auto. simpl.
      destruct N3 as (-> & _). destruct N4 as (-> & _). apply H4. right; auto.
Qed.

Hypothesis Hm0 : mr m0 m0'.
Hypothesis HSL0 : SL (nx m0' 1) (pv m0' 1).
Hypothesis Hig0 : igz m0.
Hypothesis Hig0' : igz m0'.
Hypothesis Hbd0 : bd m0 2 = minf.

Lemma level2_sim : 0 < n ->
  rsim (fun r r' => B n (fst r) (fst r')) (hv_recursive pts (S n) 2 n m0) (hv_recursive pts' (S n) 2 n m0').
Proof.
  intros Hn. rewrite !hv_rec2. destruct (Nat.eqb_spec n 0) as [|_]; [lia|]. rewrite len'.
  assert (HlenL : length L = n) by (rewrite (Permutation_length HLp); apply seq_length).
  assert (Epv : pv m0 2 = pv m0' 2) by (destruct Hm0 as (_ & -> & _); auto). rewrite Epv.
  eapply rsim_bind; [apply reset_sim; auto; split; auto|].
  intros m1 m1' (R1 & R2 & R3 & R4 & R5 & R6).
  destruct (exists_last (l := L)) as (a & q & Ea); [intros E; rewrite E in HlenL; simpl in HlenL; lia|].
  assert (Elast : pv m1' 2 n = q).
  { destruct R3 as [_ ->]. rewrite (Rep_pv0 _ _ _ _ HL), Ea. apply last_last. }
  assert (Elast1 : pv m1 2 n = q) by (destruct R1 as (_ & -> & _); auto).
  rewrite Elast, Elast1.
  assert (Elen : n = S (length a)) by (rewrite <- HlenL, Ea, app_length; simpl; lia).
  eapply rsim_bind.
  { assert (Hr := removal_sim a q [] m1 m1' Ea R1 R2 R3 R4 R5 R6). rewrite <- Elen in Hr. exact Hr. }
  intros r r' (q0 & v0 & m2 & m2' & EL & -> & -> & S1 & S2 & S3 & S4 & S5).
  assert (Hq0 : q0 < n) by (apply L_lt; rewrite EL; simpl; auto).
  destruct (cg_ok q0 2 Hq0 ltac:(lia)) as (-> & -> & C0). cbn [bind Nat.ltb Nat.leb].
  destruct (singleton_sim m2 m2' q0 Hq0) as (m3 & m3' & -> & -> & (X1 & X2 & X3 & X4) & (Y1 & Y2 & Y3 & Y4)).
  cbn [bind].
  set (m4 := set_vo m3 2 q0 nzero). set (m4' := set_vo m3' 2 q0 nzero).
  assert (T1 : mr m4 m4').
  { destruct S1 as (Z1 & Z2 & Z3). unfold mr, m4, m4'. simpl. rewrite X1, X2, X4, Y1, Y2, Y4. auto. }
  assert (T2 : SL (nx m4' 1) (pv m4' 1)) by (unfold m4'; simpl; rewrite Y1, Y2; auto).
  assert (T3 : L2 m4') by (unfold L2, m4'; simpl; rewrite Y1, Y2; exact S3).
  assert (T4 : igz m4) by (intros x; unfold m4; simpl; rewrite X3; apply S4).
  assert (T5 : igz m4') by (intros x; unfold m4'; simpl; rewrite Y3; apply S5).
  eapply rsim_bind; [apply (area_sim m4 m4' q0 1); auto|].
  intros m5 m5' (U1 & U2 & U3 & U4 & U5 & U6).
  assert (Hv0 : n = S (length v0)) by (rewrite <- HlenL, EL; reflexivity).
  assert (HNd : NoDup L) by (apply (Permutation_NoDup (Permutation_sym HLp)), seq_NoDup).
  eapply rsim_bind.
  { apply (reinsertion_sim v0 [] q0 0 1 m5 m5' nzero nzero (S n)); auto; try lia.
    intros x Hx. assert (x <> q0) by (intros ->; rewrite EL in HNd; inversion HNd; auto).
    rewrite U4, U5 by auto. auto. }
  intros r r' (ql & w & w' & m6 & m6' & -> & -> & Hql & V1 & V2).
  destruct (cg_ok ql 2 Hql ltac:(lia)) as (-> & -> & Cl). cbn [bind]. simpl.
  rewrite Hv0 at 1. apply B_last; auto. lia.
Qed.
End Sim.
