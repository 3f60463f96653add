(** Points on a descending line in the plane: the gradient and the Hessian of the hypervolume. *)
From Coq Require Import List Arith Bool Reals ZArith Lia Lra Permutation Sorting.Sorted.
From Verif Require Import Num Exn ListAux NDSModel NDSSpec NDSProof NDSTop HVModel HVTheory HVSpec HVTop HVDModel HVDSpec HVDProof HVXModel HVXProof HvnTwo HvnDef.
Import ListNotations.
Open Scope R_scope.

Lemma sorted_unique {A} (lt : A -> A -> Prop) : (forall a b, lt a b -> lt b a -> False) -> forall l l', StronglySorted lt l -> StronglySorted lt l' -> (forall a, In a l <-> In a l') -> NoDup l -> NoDup l' -> l = l'.
Proof.
  intros Hlt. induction l as [|a l IH]; intros l' S S' H N N'.
  - destruct l' as [|b l']; auto. destruct (proj2 (H b) (or_introl eq_refl)).
  - destruct l' as [|b l']. destruct (proj1 (H a) (or_introl eq_refl)). apply StronglySorted_inv in S as [S F]. apply StronglySorted_inv in S' as [S' F'].
    inversion N; subst. inversion N'; subst. rewrite Forall_forall in F, F'. assert (E : a = b).
    { destruct (proj1 (H a) (or_introl eq_refl)) as [|Ha]; auto. destruct (proj2 (H b) (or_introl eq_refl)) as [|Hb]; auto. exfalso. apply (Hlt a b); auto. }
    subst b. f_equal. apply IH; auto. intros c. split; intros Hc.
    + destruct (proj1 (H c) (or_intror Hc)) as [<-|]; auto. contradiction.
    + destruct (proj2 (H c) (or_intror Hc)) as [<-|]; auto. contradiction.
Qed.
Lemma StronglySorted_of_nth {A} (lt : A -> A -> Prop) d l : (forall i j, (i < j)%nat -> (j < length l)%nat -> lt (nth i l d) (nth j l d)) -> StronglySorted lt l.
Proof.
  induction l as [|a l IH]; intros H; constructor. apply IH. intros i j Hi Hj. apply (H (S i) (S j)); simpl; lia.
  apply Forall_forall. intros b Hb. apply (In_nth _ _ d) in Hb as (j & Hj & <-). apply (H 0%nat (S j)); simpl; lia.
Qed.
Lemma seq_strong n : forall k, StronglySorted lt (seq k n).
Proof. induction n as [|n IH]; intros k; cbn [seq]; constructor; auto. apply Forall_forall. intros b Hb. apply in_seq in Hb. lia. Qed.
(** all points mutually nondominated: all of them are kept, in their order *)
Lemma all_nondominated (Y : list (list R)) m : Y <> [] -> (2 <= m)%nat -> (forall y, In y Y -> length y = m) ->
  (forall i j, (i < length Y)%nat -> (j < length Y)%nat -> ~ dominates (nth j Y []) (nth i Y [])) -> nondominated_indices m Y = Ok (seq 0 (length Y)).
Proof.
  intros HY Hm HL Hnd. unfold nondominated_indices. destruct (Nat.eqb_spec m 1); [lia|]. unfold first_front. destruct (nds_idx_correct Y m HY Hm HL) as (d & E & [q H1] & H2 & H3 & _). rewrite E. cbn [bind].
  destruct (find (fun e => (fst e =? 0)%nat) d) as [[r l]|] eqn:Ef.
  - apply find_some in Ef as [Hin Hr]. apply Nat.eqb_eq in Hr. cbn [fst] in Hr. subst r. cbn [snd]. f_equal. destruct (H2 0%nat l Hin) as (A & B & C).
    apply (sorted_unique lt); auto; try (intros; lia). apply seq_strong. 2: apply StronglySorted_lt_NoDup; auto. 2: apply seq_NoDup.
    intros i. rewrite C, in_seq. split. intros [Hr _]. cbn in Hr. lia. intros Hi. split; [cbn; lia|]. intros (j & Hj & Hd). cbn in Hj. apply (Hnd i j); auto; lia.
  - exfalso. destruct (H3 0%nat) as (r & l & Hrl & _). destruct Y; [congruence|simpl; lia].
    assert (Hr : In r (map fst d)) by (apply in_map_iff; exists (r, l); auto). rewrite H1 in Hr. apply in_seq in Hr. assert (H0 : In 0%nat (map fst d)) by (rewrite H1; apply in_seq; lia).
    apply in_map_iff in H0 as ([r0 l0] & E0 & Hin). cbn in E0. subst. apply (find_none _ _ Ef) in Hin. discriminate.
Qed.
Lemma scatter_seq {A} (d : A) l i : (i < length l)%nat -> scatter d (seq 0 (length l)) l i = nth i l d.
Proof.
  intros Hi. transitivity (scatter d (seq 0 (length l)) l (nth i (seq 0 (length l)) 0%nat)). rewrite seq_nth by auto. reflexivity. apply scatter_nth; rewrite ?seq_length; auto. apply seq_NoDup.
Qed.
Lemma map_res_nth {A B} (f : A -> res B) l : forall r, map_res f l = Ok r -> length r = length l /\ forall i da db, (i < length l)%nat -> f (nth i l da) = Ok (nth i r db).
Proof.
  induction l as [|a l IH]; intros r E; cbn [map_res] in E. injection E as <-. split; auto. simpl; intros; lia.
  destruct (f a) as [b|] eqn:Eb; [|discriminate]. cbn [bind] in E. destruct (map_res f l) as [r'|] eqn:Er; [|discriminate]. cbn [bind] in E. injection E as <-. destruct (IH r' eq_refl) as [L H]. split; [simpl; congruence|].
  intros [|i] da db Hi; cbn [nth]; auto. apply H. simpl in Hi. lia.
Qed.

(** * the line *)
Definition sorts (N : nat) (x : nat -> R) (sg : list nat) : Prop :=
  Permutation sg (seq 0 N) /\ forall s s', (s < s')%nat -> (s' < N)%nat -> x (nth s sg 0%nat) < x (nth s' sg 0%nat).
Lemma sorts_length N x sg : sorts N x sg -> length sg = N.
Proof. intros [H _]. rewrite (Permutation_length H), seq_length. auto. Qed.
Lemma sorts_lt N x sg s : sorts N x sg -> (s < N)%nat -> (nth s sg 0 < N)%nat.
Proof. intros H Hs. pose proof (sorts_length _ _ _ H) as L. destruct H as [H _]. assert (Hi : In (nth s sg 0%nat) sg) by (apply nth_In; lia). apply (Permutation_in _ H) in Hi. apply in_seq in Hi. lia. Qed.
Lemma sorts_on N x sg i : sorts N x sg -> (i < N)%nat -> exists s, (s < N)%nat /\ nth s sg 0%nat = i.
Proof. intros H Hi. pose proof (sorts_length _ _ _ H) as L. destruct H as [H _]. assert (Hin : In i sg) by (apply (Permutation_in _ (Permutation_sym H)), in_seq; lia). apply (In_nth _ _ 0%nat) in Hin as (s & Hs & E). exists s. split; auto. lia. Qed.
Lemma sorts_inj N x sg s s' : sorts N x sg -> (s < N)%nat -> (s' < N)%nat -> nth s sg 0%nat = nth s' sg 0%nat -> s = s'.
Proof. intros H Hs Hs' E. destruct (lt_eq_lt_dec s s') as [[Hl|Hl]|Hl]; auto. destruct H as [_ H]. specialize (H s s' Hl Hs'). rewrite E in H. lra. destruct H as [_ H]. specialize (H s' s Hl Hs). rewrite E in H. lra. Qed.
Lemma sorts_mono N x sg s s' : sorts N x sg -> (s < N)%nat -> (s' < N)%nat -> x (nth s sg 0%nat) < x (nth s' sg 0%nat) -> (s < s')%nat.
Proof. intros H Hs Hs' E. destruct (lt_eq_lt_dec s s') as [[Hl|Hl]|Hl]; auto. subst. lra. destruct H as [_ H]. specialize (H s' s Hl Hs). lra. Qed.

(** the values [u] in the order [sg] between [a] and [b] *)
Definition ext (N : nat) (sg : list nat) (u : nat -> R) (a b : R) (s : nat) : R := match s with O => a | S s' => if (s' <? N)%nat then u (nth s' sg 0%nat) else b end.
Section Line.
Variables p0 p1 q0 q1 : R.
Hypothesis Q0 : 0 < q0.
Hypothesis Q1 : 0 < q1.
Variable x : nat -> R.
Variable Y : list (list R).
Let N := length Y.
Hypothesis HL : forall y, In y Y -> length y = 2%nat.
Hypothesis HN : (0 < N)%nat.
Hypothesis Y0 : forall i, (i < N)%nat -> coord Y i 0 = p0 + q0 * x i.
Hypothesis Y1 : forall i, (i < N)%nat -> coord Y i 1 = p1 - q1 * x i.
Variable ref : list R.
Hypothesis Hr : length ref = 2%nat.
Lemma line_nondominated i j : (i < N)%nat -> (j < N)%nat -> ~ dominates (nth j Y []) (nth i Y []).
Proof using All.
  intros Hi Hj (_ & H1 & k & Hk & H2). rewrite HL in * by (apply nth_In; auto). pose proof (H1 0%nat ltac:(lia)) as A. pose proof (H1 1%nat ltac:(lia)) as B.
  change (coord Y j 0 <= coord Y i 0) in A. change (coord Y j 1 <= coord Y i 1) in B. rewrite Y0, Y0 in A by auto. rewrite Y1, Y1 in B by auto.
  assert (E : x j = x i) by (apply Rle_antisym; nra). assert (k = 0 \/ k = 1)%nat as [->| ->] by lia.
  change (coord Y j 0 < coord Y i 0) in H2. rewrite Y0, Y0, E in H2 by auto. lra. change (coord Y j 1 < coord Y i 1) in H2. rewrite Y1, Y1, E in H2 by auto. lra.
Qed.
Lemma Y_nonempty : Y <> [].
Proof using All. intros E. unfold N in HN. rewrite E in HN. simpl in HN. lia. Qed.
Lemma line_gradient minf ar : compute_HVdY minf ar 2 Y ref = Ok (dY2 Y ref).
Proof using All.
  unfold compute_HVdY. rewrite (rows2 2 Y HL). cbn [negb]. rewrite (all_nondominated Y 2 Y_nonempty ltac:(lia) HL line_nondominated). cbn [bind].
  unfold gather. rewrite HVTop.map_nth_seq. unfold hypervolume_dY. rewrite Hr. cbn [bind]. f_equal. apply (nth_ext _ _ [] []). rewrite map_length, seq_length, dY2_length; auto.
  intros i Hi. rewrite map_length, seq_length in Hi. rewrite (nth_map_default _ _ _ 0%nat) by (rewrite seq_length; auto). rewrite seq_nth by auto. cbn [Nat.add].
  rewrite <- (dY2_length Y ref) at 1. rewrite scatter_seq by (rewrite dY2_length; auto). apply nth_indep. rewrite dY2_length; auto.
Qed.
Lemma line_hessian minf ar : exists H, compute_HVdY2 minf ar 2 Y ref = Ok H /\
  forall j k, (j < N)%nat -> (k < 2)%nat -> exists b, before Y j k b /\ nth k (nth j H []) [] = column2 Y j k b.
Proof using All.
  destruct (dY2_two minf ar Y ref Y_nonempty Hr HL) as [H E]. exists H. split; auto. unfold compute_HVdY2 in E. rewrite (rows2 2 Y HL) in E. cbn [negb] in E.
  rewrite (all_nondominated Y 2 Y_nonempty ltac:(lia) HL line_nondominated) in E. cbn [bind] in E. apply map_res_nth in E as [L E]. rewrite seq_length in L.
  intros j k Hj Hk. specialize (E j 0%nat [] ltac:(rewrite seq_length; auto)). cbv beta in E. rewrite seq_nth in E by auto. cbn [Nat.add] in E.
  assert (Ex : existsb (Nat.eqb j) (seq 0 (length Y)) = true) by (apply existsb_exists; exists j; split; [apply in_seq; fold N; lia|apply Nat.eqb_refl]). rewrite Ex in E.
  apply map_res_nth in E as [_ E]. specialize (E k 0%nat [] ltac:(rewrite seq_length; auto)). cbv beta in E. rewrite seq_nth in E by auto. cbn [Nat.add] in E.
  destruct (hess_column2 minf ar Y ref j k Hr HL Hj Hk) as (b & Hb & Eb). intros i Hi. apply line_nondominated; auto. exists b. split; auto. congruence.
Qed.

Variable sg : list nat.
Hypothesis Hs : sorts N x sg.
Lemma line_order : dY2_order Y = sg.
Proof using All.
  destruct (dY2_order_spec Y) as [HP HO]. pose proof (Permutation_length HP) as Lo. rewrite seq_length in Lo.
  assert (Hlt : forall s, (s < N)%nat -> (nth s (dY2_order Y) 0 < N)%nat). { intros s H. assert (Hi : In (nth s (dY2_order Y) 0%nat) (dY2_order Y)) by (apply nth_In; fold N in Lo; lia). apply (Permutation_in _ HP) in Hi. apply in_seq in Hi. fold N in Hi. lia. }
  pose proof (Permutation_NoDup (Permutation_sym HP) (seq_NoDup _ _)) as Hn.
  apply (sorted_unique (fun a b => x a < x b)). intros; lra.
  - apply (StronglySorted_of_nth _ 0%nat). rewrite Lo. intros s s' H1 H2. specialize (HO s s' H1 H2). fold N in H2. rewrite !Y0, !Y1 in HO by (apply Hlt; lia).
    destruct HO as [HO|[HO _]]; [nra|]. assert (Eq : x (nth s (dY2_order Y) 0%nat) = x (nth s' (dY2_order Y) 0%nat)) by nra. exfalso.
    destruct (sorts_on N x sg _ Hs (Hlt s ltac:(lia))) as (t & Ht & Et). destruct (sorts_on N x sg _ Hs (Hlt s' ltac:(lia))) as (t' & Ht' & Et'). rewrite <- Et, <- Et' in Eq.
    destruct (lt_eq_lt_dec t t') as [[Hl|Hl]|Hl]; [pose proof (proj2 Hs t t' Hl Ht'); lra| |pose proof (proj2 Hs t' t Hl Ht); lra].
    subst t'. rewrite Et in Et'. apply (proj1 (NoDup_nth _ 0%nat) Hn) in Et'; lia.
  - apply (StronglySorted_of_nth _ 0%nat). rewrite (sorts_length _ _ _ Hs). intros s s' H1 H2. apply Hs; auto.
  - intros i. destruct Hs as [Hp _]. split; intros Hi. apply (Permutation_in _ (Permutation_sym Hp)), (Permutation_in _ HP), Hi. apply (Permutation_in _ (Permutation_sym HP)), (Permutation_in _ Hp), Hi.
  - auto.
  - destruct Hs as [Hp _]. apply (Permutation_NoDup (Permutation_sym Hp) (seq_NoDup _ _)).
Qed.
(** the abscissae in increasing order, with those where the line meets the sides of the reference point *)
Definition aa : R := (p1 - nth 1 ref 0) / q1.
Definition bb : R := (nth 0 ref 0 - p0) / q0.
Lemma line_slope s : (s < N)%nat -> coord (dY2 Y ref) (nth s sg 0%nat) 0 * q0 + coord (dY2 Y ref) (nth s sg 0%nat) 1 * - q1 =
  q0 * q1 * (ext N sg x aa bb s - 2 * ext N sg x aa bb (S s) + ext N sg x aa bb (S (S s))).
Proof using All.
  intros H. pose proof (dY2_nth Y ref s H) as D. cbv zeta in D. rewrite line_order in D. unfold coord at 1 2. rewrite D. cbn [nth].
  pose proof (sorts_lt _ _ _ s Hs H) as H1. rewrite Y0, Y1 by auto. unfold ext at 2. rewrite (proj2 (Nat.ltb_lt s N) H).
  assert (E0 : (if (s =? 0)%nat then nth 1 ref 0 else coord Y (nth (s - 1) sg 0%nat) 1) = p1 - q1 * ext N sg x aa bb s).
  { destruct s as [|s]; cbn [Nat.eqb ext]. unfold aa. field. lra. rewrite (proj2 (Nat.ltb_lt s N) ltac:(lia)). replace (S s - 1)%nat with s by lia. apply Y1. apply (sorts_lt N x sg); auto. lia. }
  assert (E1 : (if (S s =? length Y)%nat then nth 0 ref 0 else coord Y (nth (S s) sg 0%nat) 0) = p0 + q0 * ext N sg x aa bb (S (S s))).
  { cbn [ext]. fold N. destruct (Nat.eqb_spec (S s) N) as [E|E]. rewrite (proj2 (Nat.ltb_ge (S s) N) ltac:(lia)). unfold bb. field. lra. rewrite (proj2 (Nat.ltb_lt (S s) N) ltac:(lia)). apply Y0. apply (sorts_lt N x sg); auto. lia. }
  rewrite E0, E1. ring.
Qed.
Lemma before_0 s b : (s < N)%nat -> before Y (nth s sg 0%nat) 0 b -> b = match s with O => None | S s' => Some (nth s' sg 0%nat) end.
Proof using All.
  intros H Hb. pose proof (sorts_lt _ _ _ s Hs H) as H1. destruct b as [j|]; cbn [before] in Hb.
  - destruct Hb as (Hj & Hlt & Hmin). destruct (sorts_on N x sg j Hs Hj) as (t & Ht & <-). rewrite !Y0 in Hlt by auto. assert (Hts : (t < s)%nat) by (apply (sorts_mono N x sg); auto; nra).
    destruct s as [|s]; [lia|]. f_equal. f_equal. destruct (Nat.eq_dec t s) as [|Hne]; auto. exfalso. assert (Hlt2 : (t < s)%nat) by lia. pose proof (proj2 Hs t s Hlt2 ltac:(lia)) as Hx. pose proof (proj2 Hs s (S s) ltac:(lia) H) as Hx'.
    pose proof (sorts_lt _ _ _ s Hs ltac:(lia)) as H3. specialize (Hmin (nth s sg 0%nat) H3). rewrite !Y0 in Hmin by auto. specialize (Hmin ltac:(nra)). cbn [Nat.sub] in Hmin. rewrite !Y1 in Hmin by auto. nra.
  - destruct s as [|s]; auto. exfalso. pose proof (sorts_lt _ _ _ s Hs ltac:(lia)) as H3. specialize (Hb _ H3). rewrite !Y0 in Hb by auto. pose proof (proj2 Hs s (S s) ltac:(lia) H). nra.
Qed.
Lemma before_1 s b : (s < N)%nat -> before Y (nth s sg 0%nat) 1 b -> b = if (S s <? N)%nat then Some (nth (S s) sg 0%nat) else None.
Proof using All.
  intros H Hb. pose proof (sorts_lt _ _ _ s Hs H) as H1. destruct b as [j|]; cbn [before] in Hb.
  - destruct Hb as (Hj & Hlt & Hmin). destruct (sorts_on N x sg j Hs Hj) as (t & Ht & <-). rewrite !Y1 in Hlt by auto. assert (Hts : (s < t)%nat) by (apply (sorts_mono N x sg); auto; nra).
    rewrite (proj2 (Nat.ltb_lt (S s) N) ltac:(lia)). f_equal. f_equal. destruct (Nat.eq_dec t (S s)) as [|Hne]; auto. exfalso. assert (Hlt2 : (S s < t)%nat) by lia. pose proof (proj2 Hs (S s) t Hlt2 Ht) as Hx. pose proof (proj2 Hs s (S s) ltac:(lia) ltac:(lia)) as Hx'.
    pose proof (sorts_lt _ _ _ (S s) Hs ltac:(lia)) as H3. specialize (Hmin (nth (S s) sg 0%nat) H3). rewrite !Y1 in Hmin by auto. specialize (Hmin ltac:(nra)). cbn [Nat.sub] in Hmin. rewrite !Y0 in Hmin by auto. nra.
  - destruct (Nat.ltb_spec (S s) N) as [Hl|]; auto. exfalso. pose proof (sorts_lt _ _ _ (S s) Hs Hl) as H3. specialize (Hb _ H3). rewrite !Y1 in Hb by auto. pose proof (proj2 Hs s (S s) ltac:(lia) Hl). nra.
Qed.
Definition tri (s s' : nat) : R := (if (S s =? s')%nat then 1 else 0) + (if (s =? S s')%nat then 1 else 0) - 2 * (if (s =? s')%nat then 1 else 0).
Lemma column2_nth j k b i : (i < N)%nat -> nth i (column2 Y j k b) [] = if match b with Some j' => (j' =? i)%nat | None => false end then unit2 k (-1) else if (i =? j)%nat then unit2 k 1 else [0; 0].
Proof using All. intros Hi. unfold column2. rewrite (nth_map_default _ _ _ 0%nat) by (rewrite seq_length; auto). rewrite seq_nth by auto. reflexivity. Qed.
Lemma line_entry H s s' : (forall j k, (j < N)%nat -> (k < 2)%nat -> exists b, before Y j k b /\ nth k (nth j H []) [] = column2 Y j k b) -> (s < N)%nat -> (s' < N)%nat ->
  let i := nth s sg 0%nat in let j := nth s' sg 0%nat in let J k := match k with O => q0 | _ => - q1 end in
  sumn 2 (fun k => sumn 2 (fun l => J k * nth k (nth i (nth l (nth j H []) []) []) 0 * J l)) = q0 * q1 * tri s s'.
Proof using All.
  intros HH H1 H2 i j J. pose proof (sorts_lt _ _ _ s Hs H1) as Hi. pose proof (sorts_lt _ _ _ s' Hs H2) as Hj. fold i in Hi. fold j in Hj.
  destruct (HH j 0%nat Hj ltac:(lia)) as (b0 & B0 & C0). destruct (HH j 1%nat Hj ltac:(lia)) as (b1 & B1 & C1). apply (before_0 s' b0 H2) in B0. apply (before_1 s' b1 H2) in B1.
  cbn [sumn]. rewrite C0, C1, !column2_nth by auto. unfold unit2. cbn [Nat.eqb].
  assert (T0 : match b0 with Some j' => (j' =? i)%nat | None => false end = (S s =? s')%nat).
  { subst b0. destruct s' as [|s']. destruct (Nat.eqb_spec (S s) 0); auto; lia. destruct (Nat.eqb_spec (nth s' sg 0%nat) i) as [E|E].
    - symmetry. apply Nat.eqb_eq. f_equal. apply (sorts_inj N x sg); auto; try lia. - symmetry. apply Nat.eqb_neq. intros E'. apply E. unfold i. f_equal. lia. }
  assert (T1 : match b1 with Some j' => (j' =? i)%nat | None => false end = (s =? S s')%nat).
  { subst b1. destruct (Nat.ltb_spec (S s') N) as [Hl|Hl]. 2:{ symmetry. apply Nat.eqb_neq. lia. } destruct (Nat.eqb_spec (nth (S s') sg 0%nat) i) as [E|E].
    - symmetry. apply Nat.eqb_eq. apply (sorts_inj N x sg); auto. - symmetry. apply Nat.eqb_neq. intros E'. apply E. unfold i. f_equal. lia. }
  assert (T2 : (i =? j)%nat = (s =? s')%nat).
  { destruct (Nat.eqb_spec i j) as [E|E]. symmetry. apply Nat.eqb_eq. apply (sorts_inj N x sg); auto. symmetry. apply Nat.eqb_neq. intros E'. apply E. unfold i, j. congruence. }
  rewrite T0, T1, T2. unfold tri, J. destruct (Nat.eqb_spec (S s) s'), (Nat.eqb_spec s (S s')), (Nat.eqb_spec s s'); try lia; cbn [nth]; ring.
Qed.
End Line.
