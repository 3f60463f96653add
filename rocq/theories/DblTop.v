(** The side by side runs, from the call of [hypervolume] on. *)
From Coq Require Import ZArith Reals Lra List Arith Lia Bool Permutation Sorted FunctionalExtensionality.
From Flocq Require Import Core IEEE754.BinarySingleNaN.
From Verif Require Import Num Exn ListAux NDSSpec HVSpec HVModel HVLinks HVProof HVTop HVHom HVExtra DblModel DblSpec DblNDS DblSim.
Import ListNotations.
Open Scope nat_scope.

(** * A double with a given value *)
Definition pick (r : R) : double :=
  binary_normalize 53 1024 _ _ mode_NE (Ztrunc (scaled_mantissa radix2 (SpecFloat.fexp 53 1024) r))
    (cexp radix2 (SpecFloat.fexp 53 1024) r) false.
Lemma pick_ok (x : double) : is_finite x = true -> B2R (pick (B2R x)) = B2R x /\ is_finite (pick (B2R x)) = true.
Proof.
  intros Hx. set (r := B2R x).
  assert (G : generic_format radix2 (SpecFloat.fexp 53 1024) r) by apply generic_format_B2R.
  pose proof (binary_normalize_correct 53 1024 _ _ mode_NE (Ztrunc (scaled_mantissa radix2 (SpecFloat.fexp 53 1024) r))
    (cexp radix2 (SpecFloat.fexp 53 1024) r) false) as H. cbv zeta in H.
  assert (E : F2R (Float radix2 (Ztrunc (scaled_mantissa radix2 (SpecFloat.fexp 53 1024) r)) (cexp radix2 (SpecFloat.fexp 53 1024) r)) = r)
    by (symmetry; exact G).
  rewrite E in H. rewrite round_generic in H; auto with typeclass_instances.
  rewrite Rlt_bool_true in H by apply abs_B2R_lt_emax. unfold pick. tauto.
Qed.

Section AS.
Variable argD : list double -> list nat.
Hypothesis Hok : dargsort_ok argD.

Definition reprb (r : R) : bool := if Req_EM_T (B2R (pick r)) r then is_finite (pick r) else false.
Definition asR (l : list R) : list nat := if forallb reprb l then argD (map pick l) else stable_argsort l.

Lemma fin_le (x y : double) : is_finite x = true -> is_finite y = true -> (Bleb x y = true <-> (B2R x <= B2R y)%R).
Proof.
  intros Hx Hy. rewrite Bleb_correct by auto. split; intros H.
  - destruct (Rle_bool_spec (B2R x) (B2R y)); [auto|discriminate].
  - apply Rle_bool_true; auto.
Qed.
Lemma fin_le_eq (x y x' y' : double) : is_finite x = true -> is_finite y = true -> is_finite x' = true -> is_finite y' = true ->
  B2R x = B2R x' -> B2R y = B2R y' -> Bleb x y = Bleb x' y'.
Proof. intros. rewrite !Bleb_correct by auto. congruence. Qed.

Lemma pick_nth l i : forallb reprb l = true -> i < length l ->
  is_finite (nth i (map pick l) d0) = true /\ B2R (nth i (map pick l) d0) = nth i l 0%R.
Proof.
  intros Hl Hi. rewrite (nth_map_default pick l i 0%R d0) by auto.
  rewrite forallb_forall in Hl. specialize (Hl (nth i l 0%R) (nth_In _ _ Hi)). unfold reprb in Hl.
  destruct (Req_EM_T _ _); [auto|discriminate].
Qed.
Lemma asR_ok : argsort_ok asR.
Proof.
  intros l. unfold asR. destruct (forallb reprb l) eqn:E; [|apply stable_argsort_ok].
  assert (Hn : no_nan (map pick l)).
  { intros x Hx. apply (In_nth _ _ d0) in Hx as (i & Hi & <-). rewrite map_length in Hi. apply fin_nan. apply pick_nth; auto. }
  destruct (proj1 Hok (map pick l) Hn) as [H1 H2]. rewrite map_length in H1. split; [exact H1|].
  revert H2. apply StronglySorted_impl. intros a b Ha Hb Hab.
  apply (Permutation_in _ H1) in Ha, Hb. apply in_seq in Ha, Hb.
  destruct (pick_nth l a E ltac:(lia)) as [A1 A2]. destruct (pick_nth l b E ltac:(lia)) as [B1 B2].
  rewrite <- A2, <- B2. apply fin_le; auto.
Qed.
Lemma asR_eq l : (forall x, In x l -> is_finite x = true) -> asR (map dR l) = argD l.
Proof.
  intros Hl. unfold asR.
  assert (E : forallb reprb (map dR l) = true).
  { apply forallb_forall. intros r Hr. apply in_map_iff in Hr as (x & <- & Hx). unfold reprb.
    destruct (pick_ok x (Hl x Hx)) as [P1 P2]. destruct (Req_EM_T _ _); auto. }
  rewrite E. apply (proj2 Hok).
  - intros x Hx. apply (In_nth _ _ d0) in Hx as (i & Hi & <-). rewrite map_length in Hi. apply fin_nan. apply pick_nth; auto.
  - intros x Hx. apply fin_nan; auto.
  - rewrite !map_length. auto.
  - rewrite !map_length. intros i j Hi Hj.
    destruct (pick_nth (map dR l) i E ltac:(rewrite map_length; lia)) as [A1 A2].
    destruct (pick_nth (map dR l) j E ltac:(rewrite map_length; lia)) as [B1 B2].
    apply fin_le_eq; auto; try (apply Hl, nth_In; auto).
    + rewrite A2. apply (nth_map_default dR l i d0 0%R); auto.
    + rewrite B2. apply (nth_map_default dR l j d0 0%R); auto.
Qed.

Variable pts : list (list double).
Notation n := (length pts).
Notation pts' := (map (map dR) pts).
Hypothesis Hfin : forall p x, In p pts -> In x p -> is_finite x = true.

Lemma cD_fin x i : is_finite (cD pts x i) = true.
Proof.
  unfold cD. destruct (nth_in_or_default x pts []) as [H|H].
  - destruct (nth_in_or_default i (nth x pts []) d0) as [H'|H']; [eauto|]. rewrite H'. reflexivity.
  - rewrite H. destruct i; reflexivity.
Qed.
Lemma cR_eq x i : c pts' x i = B2R (cD pts x i).
Proof.
  unfold c, cD. change (@nil R) with (map dR []). rewrite map_nth.
  change 0%R with (dR d0). apply map_nth.
Qed.
Lemma sort_dim ns i : sort_by_dimension pts' asR ns i = sort_by_dimension pts argD ns i.
Proof.
  unfold sort_by_dimension. f_equal. rewrite <- asR_eq.
  - f_equal. rewrite map_map. apply map_ext. intros x. apply cR_eq.
  - intros v Hv. apply in_map_iff in Hv as (x & <- & _). apply cD_fin.
Qed.
Lemma extend_links ns i (m : @mem double) (m' : @mem R) : nx m = nx m' -> pv m = pv m' ->
  nx (extend pts ns i m) = nx (extend pts' ns i m') /\ pv (extend pts ns i m) = pv (extend pts' ns i m') /\
  ig (extend pts ns i m) = ig m /\ bd (extend pts ns i m) = bd m.
Proof.
  unfold extend. rewrite map_length. revert m m'. induction ns as [|x ns IH]; intros m m' H1 H2; [simpl; auto|].
  cbn [fold_left].
  match goal with |- nx (fold_left _ ns ?a) = nx (fold_left _ ns ?b) /\ _ => destruct (IH a b) as (-> & -> & -> & ->) end.
  - simpl. rewrite H1, H2. reflexivity.
  - simpl. rewrite H2. reflexivity.
  - auto.
Qed.
Lemma pre_links is : forall ns (m : @mem double) (m' : @mem R), nx m = nx m' -> pv m = pv m' ->
  nx (pre_process pts argD is ns m) = nx (pre_process pts' asR is ns m') /\
  pv (pre_process pts argD is ns m) = pv (pre_process pts' asR is ns m') /\
  ig (pre_process pts argD is ns m) = ig m /\ bd (pre_process pts argD is ns m) = bd m.
Proof.
  induction is as [|i is IH]; intros ns m m' H1 H2; cbn [pre_process]; [auto|].
  rewrite sort_dim. destruct (extend_links (sort_by_dimension pts argD ns i) i m m' H1 H2) as (E1 & E2 & E3 & E4).
  destruct (IH (sort_by_dimension pts argD ns i) _ _ E1 E2) as (-> & -> & -> & ->). auto.
Qed.

Variable minf : double.
Hypothesis Hminf : is_finite minf = true.
Notation m0 D := (pre_process pts argD (seq 0 (S D)) (seq 0 n) (init_mem pts minf)).
Notation m0' D := (pre_process pts' asR (seq 0 (S D)) (seq 0 n) (init_mem pts' (B2R minf))).

Lemma start D : exists M : nat -> list nat,
  (forall i, i <= D -> Permutation (M i) (seq 0 n) /\
       StronglySorted (fun a b => (B2R (cD pts a i) <= B2R (cD pts b i))%R) (M i) /\
       Rep (nx (m0' D) i) (pv (m0' D) i) n (M i)) /\
  mr (m0 D) (m0' D) /\ igz (m0 D) /\ igz (m0' D) /\ bd (m0 D) 2 = minf.
Proof.
  destruct (pre_process_spec pts' asR asR_ok (seq 0 (S D)) (seq 0 n) (init_mem pts' (B2R minf))) as
    (M & F1 & F2 & F3 & F4 & F5 & F6 & F7).
  { rewrite map_length. auto. }
  { apply seq_NoDup. }
  { intros i _. simpl. split; [repeat constructor; simpl; tauto|]. intros a b ([|? [|? ?]] & l2 & E); simpl in E; inversion E; subst; auto. destruct l; discriminate. }
  destruct (pre_links (seq 0 (S D)) (seq 0 n) (init_mem pts minf) (init_mem pts' (B2R minf))) as (G1 & G2 & G3 & G4).
  { simpl. rewrite map_length. auto. } { simpl. rewrite map_length. auto. }
  exists M. split; [|split; [|split; [|split]]].
  - intros i Hi. destruct (F1 i) as (X1 & X2 & X3); [apply in_seq; lia|]. rewrite map_length in X1, X3.
    split; [exact X1|]. split; [|exact X3]. revert X2. apply StronglySorted_impl. intros a b _ _. rewrite !cR_eq. auto.
  - split; [exact G1|]. split; [exact G2|]. intros i. rewrite G4, F6. simpl. auto.
  - intros x. rewrite G3. reflexivity.
  - intros x. rewrite F3. reflexivity.
  - rewrite G4. reflexivity.
Qed.

Lemma Rep_SL (N P : nat -> nat) L : Rep N P n L -> Permutation L (seq 0 n) ->
  StronglySorted (fun a b => (B2R (cD pts a 1) <= B2R (cD pts b 1))%R) L -> SL pts N P.
Proof.
  intros HR Hp Hs x Hx.
  assert (Hin : In x L) by (apply (Permutation_in _ (Permutation_sym Hp)), in_seq; lia).
  apply in_split in Hin as (l1 & l2 & E). rewrite E in HR, Hs. split; intros Hl.
  - rewrite (Rep_nx _ _ _ _ _ _ HR) in *. destruct l2 as [|y l2]; [simpl in Hl; lia|]. simpl.
    clear -Hs. induction l1 as [|z l1 IH]; simpl in Hs; inversion Hs as [|? ? H F]; subst; [inversion F; auto|auto].
  - rewrite (Rep_pv _ _ _ _ _ _ HR) in *. destruct (exists_last (l := l1)) as (u & y & ->); [intros ->; simpl in Hl; lia|].
    rewrite last_last in *. rewrite <- app_assoc in Hs. simpl in Hs.
    clear -Hs. induction u as [|z u IH]; simpl in Hs; inversion Hs as [|? ? H F]; subst; [inversion F; auto|auto].
Qed.

(** * The run on the values *)
Hypothesis Hneg : forall p x, In p pts -> In x p -> (B2R minf < B2R x <= 0)%R.
Variable D : nat.
Hypothesis Hrow : forall p, In p pts -> length p = S D.

Lemma real_run : D <= 2 -> exists w m1', hv_recursive pts' (S n) D n (m0' D) = Ok (w, m1') /\
  is_hypervolume pts' (repeat 0%R (S D)) w.
Proof.
  intros HD.
  assert (Hrows : rows_ok pts' (repeat 0%R (S D))).
  { intros p Hp. apply in_map_iff in Hp as (q & <- & Hq). rewrite map_length, repeat_length. auto. }
  assert (Hz : forall k, nth k (repeat 0%R (S D)) 0%R = 0%R).
  { intros k. destruct (nth_in_or_default k (repeat 0%R (S D)) 0%R) as [H|H]; auto. apply (repeat_spec _ _ _ H). }
  assert (Hc : forall x k, (x < length pts') -> k <= D -> (B2R minf <= c pts' x k <= 0)%R).
  { intros x k Hx Hk. rewrite map_length in Hx. rewrite cR_eq. unfold cD.
    assert (Hp : In (nth x pts []) pts) by (apply nth_In; auto).
    assert (Hin : In (nth k (nth x pts []) d0) (nth x pts [])) by (apply nth_In; rewrite (Hrow _ Hp); lia).
    specialize (Hneg _ _ Hp Hin). lra. }
  destruct (sweep_correct pts' D asR (B2R minf) asR_ok) as [m1' Hm]; auto.
  { intros x Hx. rewrite map_length in Hx. change (@nil R) with (map dR []). rewrite map_nth, map_length.
    apply Hrow, nth_In; auto. }
  rewrite map_length in Hm. eexists. exists m1'. split; [exact Hm|].
  pose proof (hv_is_hypervolume pts' (repeat 0%R (S D)) Hrows) as H. unfold HVof in H. rewrite repeat_length in H.
  replace (HVTheory.co (repeat 0%R (S D))) with (fun _ : nat => 0%R) in H; [exact H|].
  extensionality k. symmetry. apply Hz.
Qed.

Variable K : double -> Prop.
Hypothesis HKf : forall x, K x -> is_finite x = true.
Hypothesis HK : forall p x, In p pts -> In x p -> K x.
Hypothesis HKn : forall x, K x -> (B2R x <= 0)%R.
Variable W : R.
Hypothesis HKW : forall x, K x -> (- W <= B2R x)%R.
Variable A0 : nat -> double -> R -> Prop.
Hypothesis A0_0 : A0 0 d0 0%R.
Hypothesis A0_mono : forall k v v', A0 k v v' -> A0 (S k) v v'.
Hypothesis A0_step : forall k v v' h q p, (S k <= S n) -> A0 k v v' -> K h -> K q -> K p -> (B2R q <= B2R p)%R ->
  A0 (S k) (nadd v (nmul h (nsub q p))) (v' + B2R h * (B2R q - B2R p))%R.
Hypothesis A0_last : forall k v v' h q, (S k <= S n) -> A0 k v v' -> K h -> K q ->
  A0 (S k) (nadd v (nmul h q)) (v' + B2R h * B2R q)%R.
Variable B : nat -> double -> R -> Prop.
Hypothesis B_0 : B 0 d0 0%R.
Hypothesis B_step : forall k v v' a a' q p, S k <= n -> B k v v' -> A0 (S n) a a' -> (a' <= W * W)%R -> K q -> K p -> (B2R q <= B2R p)%R ->
  B (S k) (nadd v (nmul a (nsub p q))) (v' + a' * (B2R p - B2R q))%R.
Hypothesis B_last : forall k v v' a a' q, S k <= n -> B k v v' -> A0 (S n) a a' -> (a' <= W * W)%R -> K q ->
  B (S k) (nsub v (nmul a q)) (v' - a' * B2R q)%R.

Definition final (v : double) (w : R) : Prop :=
  match D with 0 => is_finite v = true /\ B2R v = w | 1 => A0 (S n) v w | _ => B n v w end.

Lemma top_run : D <= 2 -> exists v w, (do r <- hv_recursive pts (S n) D n (m0 D); Ok (fst r)) = Ok v /\
  is_hypervolume pts' (repeat 0%R (S D)) w /\ final v w.
Proof.
  intros HD. destruct (real_run HD) as (w & m1' & Hr & Hw).
  destruct (start D) as (M & HM & Hmr & Hi & Hi' & Hb).
  assert (Hsim : rsim (fun r r' => final (fst r) (fst r')) (hv_recursive pts (S n) D n (m0 D)) (hv_recursive pts' (S n) D n (m0' D))).
  { unfold final. destruct (Nat.eq_dec n 0) as [E|E].
    { assert (Hn : (n =? 0) = true) by (apply Nat.eqb_eq; auto).
      destruct D as [|[|[|?]]]; [| | |lia]; cbn [hv_recursive]; rewrite Hn; simpl; auto.
      - rewrite E. apply A0_mono, A0_0.
      - rewrite E. exact B_0. }
    destruct D as [|[|[|?]]]; [| | |lia].
    - cbn [hv_recursive]. apply Nat.eqb_neq in E. rewrite E.
      destruct Hmr as (En & _). rewrite En, map_length.
      eapply rsim_bind; [apply (cg_sim pts K HK)|]. intros h h' (_ & -> & Hq & Hh). cbn [rsim fst].
      unfold nopp, NumD, NumR. rewrite is_finite_Bopp, B2R_Bopp. auto.
    - eapply rsim_impl; [|apply (level1_sim pts K HKf HK A0 A0_0 A0_mono A0_step A0_last)].
      + intros a b (H & _). exact H.
      + apply Hmr.
      + destruct (HM 1 ltac:(lia)) as (H1 & H2 & H3). eapply Rep_SL; eauto.
    - assert (B_step' : forall k v v' a a' q p, S k <= n -> B k v v' -> A1 pts A0 W a a' -> K q -> K p -> (B2R q <= B2R p)%R ->
        B (S k) (nadd v (nmul a (nsub p q))) (v' + a' * (B2R p - B2R q))%R).
      { intros k v v' a a' q p Hk Hv [Ha Ha']. apply B_step; auto. }
      assert (B_last' : forall k v v' a a' q, S k <= n -> B k v v' -> A1 pts A0 W a a' -> K q ->
        B (S k) (nsub v (nmul a q)) (v' - a' * B2R q)%R).
      { intros k v v' a a' q Hk Hv [Ha Ha']. apply B_last; auto. }
      destruct (HM 2 ltac:(lia)) as (H1 & H2 & H3). destruct (HM 1 ltac:(lia)) as (G1 & G2 & G3).
      apply (level2_sim pts K HKf HKn HK A0 A0_0 A0_mono A0_step A0_last W HKW B B_0 B_step' B_last' (M 2) _ _ H3 H1 H2) with (minf := minf); auto.
      + intros x Hx. apply Hrow, nth_In; auto.
      + intros x Hx. rewrite fin_ltb by (auto; apply cD_fin). simpl.
        assert (Hp : In (nth x pts []) pts) by (apply nth_In; auto).
        assert (Hin : In (cD pts x 2) (nth x pts [])) by (unfold cD; apply nth_In; pose proof (Hrow _ Hp); lia).
        specialize (Hneg _ _ Hp Hin). apply nltb_true. lra.
      + eapply Rep_SL; eauto.
      + lia. }
  rewrite Hr in Hsim. destruct (hv_recursive pts (S n) D n (m0 D)) as [[v m1]|e] eqn:Ev; [|destruct Hsim].
  exists v, w. simpl. auto.
Qed.
End AS.
