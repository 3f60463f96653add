From Coq Require Import List Arith Bool ZArith Lia Reals Lra Psatz Permutation.
From Verif Require Import ListAux ProbModel NewtonModel BenchModel BenchSpec BenchBase BenchTrig WfgSpec WfgModel WfgBase.
Import ListNotations.
Open Scope R_scope.

Lemma mapo_ok {A B} (f : A -> option B) g l : (forall a, In a l -> f a = Some (g a)) -> mapo f l = Some (map g l).
Proof. induction l as [|a l IH]; intros H; cbn; auto. rewrite H by (left; auto). rewrite IH by (intros; apply H; right; auto). reflexivity. Qed.
Lemma mapo_forall {A B} (f : A -> option B) (P : B -> Prop) l : (forall a, In a l -> exists b, f a = Some b /\ P b) -> exists r, mapo f l = Some r /\ length r = length l /\ Forall P r.
Proof.
  induction l as [|a l IH]; intros H; cbn; [exists []; auto|]. destruct (H a) as (b & -> & Hb); [left; auto|]. destruct IH as (r & -> & Hl & Hr); [intros; apply H; right; auto|].
  exists (b :: r). cbn. auto.
Qed.

(** ** the reduction of a non-separable group *)
Definition spread (l : list R) : R := vsum l + vsum (map (fun a => vsum (map (fun b => Rabs (a - b)) l)) l).
Lemma vsum_perm l l' : Permutation l l' -> vsum l = vsum l'.
Proof. unfold vsum. induction 1; cbn; lra. Qed.
Lemma vsum_map_plus {A} (f g : A -> R) l : vsum (map (fun a => f a + g a) l) = vsum (map f l) + vsum (map g l).
Proof. unfold vsum. induction l; cbn; lra. Qed.
Lemma map_nth_seq (l : list R) : map (fun i => nth i l 0) (seq 0 (length l)) = l.
Proof. apply nth_ext with (d := 0) (d' := 0); [rewrite map_length, seq_length; auto|]. intros i Hi. rewrite map_length, seq_length in Hi. rewrite nth_indep with (d' := nth 0 l 0) by (rewrite map_length, seq_length; auto). rewrite (map_nth (fun i => nth i l 0)), seq_nth; auto. Qed.
Lemma map_as_seq {A} (g : R -> A) l : map (fun i => g (nth i l 0)) (seq 0 (length l)) = map g l.
Proof. rewrite <- (map_map (fun i => nth i l 0) g), map_nth_seq. auto. Qed.
Lemma nodup_map_in {A B} (f : A -> B) l : NoDup l -> (forall a b, In a l -> In b l -> f a = f b -> a = b) -> NoDup (map f l).
Proof.
  induction 1 as [|a l Ha Hl IH]; intros Hf; cbn; constructor.
  - intros H. apply in_map_iff in H. destruct H as (b & E & Hb). apply Ha. replace a with b; auto. apply Hf; auto; [right|left]; auto.
  - apply IH. intros; apply Hf; auto; right; auto.
Qed.
Lemma rotation c n : (c < n)%nat -> Permutation (map (fun o => ((c + o + 1) mod n)%nat) (seq 0 n)) (seq 0 n).
Proof.
  intros Hc. apply NoDup_Permutation_bis.
  - apply nodup_map_in; [apply seq_NoDup|]. intros a b Ha Hb E. apply in_seq in Ha, Hb.
    assert (forall o, (o < n)%nat -> ((c + o + 1) mod n = if c + o + 1 <? n then c + o + 1 else c + o + 1 - n)%nat) as Hm.
    { intros o Ho. destruct (Nat.ltb_spec (c + o + 1) n); [apply Nat.mod_small; auto|]. symmetry. apply Nat.mod_unique with 1%nat; lia. }
    rewrite !Hm in E by lia. destruct (Nat.ltb_spec (c + a + 1) n), (Nat.ltb_spec (c + b + 1) n); lia.
  - rewrite map_length. auto.
  - intros i Hi. apply in_map_iff in Hi. destruct Hi as (o & <- & Ho). apply in_seq. pose proof (Nat.mod_upper_bound (c + o + 1) n). lia.
Qed.
Lemma non_separable_eq y : y <> [] -> let n := length y in let v := INR ((n + 1) / 2) in
  0 < v * (1 + 2 * INR n - 2 * v) /\ non_separable n y = Some (correct01 (spread y / (v * (1 + 2 * INR n - 2 * v)))).
Proof.
  intros Hy n v. assert (Hn : (1 <= n)%nat) by (unfold n; destruct y; [contradiction|cbn; lia]).
  assert (Hv : (1 <= (n + 1) / 2 <= n)%nat) by (split; [apply Nat.div_le_lower_bound; lia|apply Nat.div_le_upper_bound; lia]).
  assert (H1 : 1 <= v) by (unfold v; replace 1 with (INR 1) by (cbn; auto); apply le_INR; lia). assert (H2 : v <= INR n) by (unfold v; apply le_INR; lia).
  assert (Hd : 0 < v * (1 + 2 * INR n - 2 * v)) by nra. split; auto.
  unfold non_separable. fold n. rewrite (mapo_ok _ (fun c => nth c y 0 + vsum (map (fun b => Rabs (nth c y 0 - b)) y))).
  2:{ intros c Hc. apply in_seq in Hc. rewrite (nth_error_nth' y 0) by lia.
      rewrite (mapo_ok _ (fun o => Rabs (nth c y 0 - nth ((c + o + 1) mod n) y 0))).
      2:{ intros o Ho. rewrite (nth_error_nth' y 0); auto. apply Nat.mod_upper_bound. lia. }
      f_equal. f_equal. transitivity (vsum (map (fun o => Rabs (nth c y 0 - nth ((c + o + 1) mod n) y 0)) (seq 0 n))).
      - assert (Es : seq 0 n = seq 0 (n - 1) ++ [(n - 1)%nat]) by (rewrite <- seq_S; f_equal; lia). rewrite Es, map_app, vsum_app. cbn [map]. replace ((c + (n - 1) + 1) mod n)%nat with c.
        2:{ apply Nat.mod_unique with 1%nat; lia. }
        replace (nth c y 0 - nth c y 0) with 0 by ring. rewrite Rabs_R0. unfold vsum at 3. cbn. ring.
      - rewrite <- (map_as_seq (fun b => Rabs (nth c y 0 - b)) y). fold n.
        rewrite <- (map_map (fun o => ((c + o + 1) mod n)%nat) (fun i => Rabs (nth c y 0 - nth i y 0))). apply vsum_perm. apply Permutation_map. apply rotation. lia. }
  assert (HnR : INR n <> 0) by (apply not_0_INR; lia). rewrite div_some by auto. fold v.
  replace (INR n * v * (1 + 2 * INR n - 2 * v) / INR n) with (v * (1 + 2 * INR n - 2 * v)) by (field; auto).
  rewrite div_some by lra. do 3 f_equal. rewrite vsum_map_plus. unfold spread. f_equal; [f_equal; apply map_nth_seq|].
  f_equal. apply (map_as_seq (fun a => vsum (map (fun b => Rabs (a - b)) y))).
Qed.
(** convex in every entry, hence largest at a vertex *)
Lemma abs_convex x b : unit x -> Rabs (x - b) <= (1 - x) * Rabs (0 - b) + x * Rabs (1 - b).
Proof.
  intros (H0 & H1). replace (x - b) with ((1 - x) * (0 - b) + x * (1 - b)) by ring. eapply Rle_trans; [apply Rabs_triang|]. rewrite !Rabs_mult, (Rabs_right (1 - x)), (Rabs_right x) by lra. lra.
Qed.
Definition pairs (l : list R) : R := vsum (map (fun a => vsum (map (fun b => Rabs (a - b)) l)) l).
Definition dist_to (x : R) (l : list R) : R := vsum (map (fun b => Rabs (x - b)) l).
Lemma pairs_cons x l : pairs (x :: l) = 2 * dist_to x l + pairs l.
Proof.
  unfold pairs, dist_to. cbn [map]. unfold vsum at 1. cbn [fold_right]. fold (vsum (map (fun a => vsum (Rabs (a - x) :: map (fun b => Rabs (a - b)) l)) l)).
  replace (x - x) with 0 by ring. rewrite Rabs_R0. change (fold_right Rplus 0 (0 :: map (fun b => Rabs (x - b)) l)) with (0 + vsum (map (fun b => Rabs (x - b)) l)).
  assert (E : vsum (map (fun a => vsum (Rabs (a - x) :: map (fun b => Rabs (a - b)) l)) l) = vsum (map (fun a => Rabs (a - x)) l) + vsum (map (fun a => vsum (map (fun b => Rabs (a - b)) l)) l)).
  { rewrite <- vsum_map_plus. f_equal. }
  unfold vsum at 2 in E. unfold vsum in E at 1. unfold vsum in *. rewrite E. assert (E2 : map (fun a => Rabs (a - x)) l = map (fun b => Rabs (x - b)) l) by (apply map_ext; intros; apply Rabs_minus_sym). rewrite E2. cbn [fold_right]. ring.
Qed.
Lemma pairs_perm l l' : Permutation l l' -> pairs l = pairs l'.
Proof.
  intros H. unfold pairs. transitivity (vsum (map (fun a => vsum (map (fun b => Rabs (a - b)) l)) l')); [apply vsum_perm, Permutation_map; auto|].
  f_equal. apply map_ext. intros a. apply vsum_perm, Permutation_map; auto.
Qed.
Lemma spread_perm l l' : Permutation l l' -> spread l = spread l'.
Proof. intros H. unfold spread. fold (pairs l) (pairs l'). rewrite (vsum_perm l l' H), (pairs_perm l l' H). auto. Qed.
Lemma spread_cons x l : spread (x :: l) = x + 2 * dist_to x l + spread l.
Proof. unfold spread. fold (pairs (x :: l)) (pairs l). rewrite pairs_cons. unfold vsum. cbn. ring. Qed.
Lemma dist_convex x l : unit x -> dist_to x l <= (1 - x) * dist_to 0 l + x * dist_to 1 l.
Proof. intros H. unfold dist_to, vsum. induction l as [|b l IH]; cbn; [lra|]. pose proof (abs_convex x b H). lra. Qed.
Lemma spread_vertex K y : forall pre, Forall unit y -> Forall (fun a => a = 0 \/ a = 1) pre ->
  (forall z, length z = (length pre + length y)%nat -> Forall (fun a => a = 0 \/ a = 1) z -> spread z <= K) -> spread (y ++ pre) <= K.
Proof.
  induction y as [|x y IH]; intros pre Hy Hp HK; [apply HK; auto; cbn; lia|]. inversion Hy as [|? ? Hx Hy']; subst. cbn [app]. rewrite spread_cons. pose proof (dist_convex x (y ++ pre) Hx).
  assert (P : forall a, a = 0 \/ a = 1 -> spread (a :: y ++ pre) <= K).
  { intros a Ha. rewrite (spread_perm _ (y ++ a :: pre)) by (apply Permutation_middle). apply IH; auto. intros z Hz. apply HK. cbn in *. lia. }
  pose proof (P 0 (or_introl eq_refl)) as P0. pose proof (P 1 (or_intror eq_refl)) as P1. rewrite spread_cons in P0, P1. destruct Hx. nra.
Qed.
Lemma vertex_perm z : Forall (fun a => a = 0 \/ a = 1) z -> exists k w, Permutation z (repeat 1 k ++ repeat 0 w).
Proof.
  induction 1 as [|a z [->| ->] Hz (k & w & IH)]; [exists 0%nat, 0%nat; constructor| |].
  - exists k, (S w). cbn. apply Permutation_cons_app. auto.
  - exists (S k), w. cbn. constructor. auto.
Qed.
Lemma dist_to_app x a b : dist_to x (a ++ b) = dist_to x a + dist_to x b.
Proof. unfold dist_to. rewrite map_app, vsum_app. auto. Qed.
Lemma map_rep {A B} (f : A -> B) a n : map f (repeat a n) = repeat (f a) n.
Proof. induction n; cbn; f_equal; auto. Qed.
Lemma dist_to_repeat x a n : dist_to x (repeat a n) = INR n * Rabs (x - a).
Proof. unfold dist_to. rewrite map_rep. apply vsum_repeat. Qed.
Lemma spread_zeros w : spread (repeat 0 w) = 0.
Proof. induction w as [|w IH]; [unfold spread, vsum; cbn; ring|]. cbn [repeat]. rewrite spread_cons, IH, dist_to_repeat. replace (0 - 0) with 0 by ring. rewrite Rabs_R0. ring. Qed.
Lemma spread_two p k w : 0 <= p -> spread (repeat p k ++ repeat 0 w) = p * INR k * (1 + 2 * INR w).
Proof.
  intros Hp. induction k as [|k IH]; [cbn [repeat app INR]; rewrite spread_zeros; ring|]. cbn [repeat app]. rewrite spread_cons, IH, dist_to_app, !dist_to_repeat, S_INR.
  replace (p - p) with 0 by ring. rewrite Rabs_R0, Rminus_0_r, Rabs_right by lra. ring.
Qed.
Lemma vertex_bound n k w : (k + w)%nat = n -> INR k * (1 + 2 * INR w) <= INR ((n + 1) / 2) * (1 + 2 * INR n - 2 * INR ((n + 1) / 2)).
Proof.
  intros E. set (v := ((n + 1) / 2)%nat). assert (Hv : (2 * v <= n + 1 < 2 * v + 2)%nat).
  { unfold v. pose proof (Nat.div_mod (n + 1) 2 ltac:(lia)). pose proof (Nat.mod_upper_bound (n + 1) 2 ltac:(lia)). lia. }
  assert (Hz : (Z.of_nat k * (1 + 2 * Z.of_nat w) <= Z.of_nat v * (1 + 2 * Z.of_nat n - 2 * Z.of_nat v))%Z).
  { assert (Hn : (n = 2 * v \/ n + 1 = 2 * v)%nat) by lia. subst n. destruct Hn as [Hn|Hn].
    - replace (Z.of_nat w) with (2 * Z.of_nat v - Z.of_nat k)%Z by lia. replace (Z.of_nat (k + w)) with (2 * Z.of_nat v)%Z by lia.
      assert (E : exists j, Z.of_nat v = (Z.of_nat k + j)%Z) by (exists (Z.of_nat v - Z.of_nat k)%Z; lia). destruct E as (j & ->). assert (0 <= j + 2 * (j * j))%Z by nia. nia.
    - replace (Z.of_nat w) with (2 * Z.of_nat v - 1 - Z.of_nat k)%Z by lia. replace (Z.of_nat (k + w)) with (2 * Z.of_nat v - 1)%Z by lia.
      assert (E : exists j, Z.of_nat v = (Z.of_nat k + j)%Z) by (exists (Z.of_nat v - Z.of_nat k)%Z; lia). destruct E as (j & ->). assert (0 <= 2 * (j * j) - j)%Z by nia. nia. }
  apply IZR_le in Hz. rewrite !mult_IZR, minus_IZR, !plus_IZR, !mult_IZR, <- !INR_IZR_INZ in Hz. exact Hz.
Qed.
Lemma spread_nonneg y : Forall unit y -> 0 <= spread y.
Proof.
  intros H. unfold spread. apply Rplus_le_le_0_compat; [apply vsum_nonneg; eapply Forall_impl; [|exact H]; intros a Ha; apply Ha|].
  apply vsum_nonneg, Forall_map, Forall_forall. intros a _. apply vsum_nonneg, Forall_map, Forall_forall. intros b _. apply Rabs_pos.
Qed.
Lemma spread_bound y : Forall unit y -> let n := length y in spread y <= INR ((n + 1) / 2) * (1 + 2 * INR n - 2 * INR ((n + 1) / 2)).
Proof.
  intros H n. rewrite <- (app_nil_r y). apply spread_vertex; auto. intros z Hz Hv. cbn in Hz. fold n in Hz. destruct (vertex_perm z Hv) as (k & w & P).
  rewrite (spread_perm _ _ P), spread_two by lra. rewrite Rmult_1_l. apply vertex_bound. apply Permutation_length in P. rewrite app_length, !repeat_length in P. lia.
Qed.
Lemma non_separable_unit y : y <> [] -> Forall unit y -> exists r, non_separable (length y) y = Some r /\ unit r.
Proof.
  intros Hy H. destruct (non_separable_eq y Hy) as (Hd & E). pose proof (spread_bound y H) as Hb. pose proof (spread_nonneg y H) as Hp. cbv zeta in *. rewrite E.
  set (d := INR ((length y + 1) / 2) * (1 + 2 * INR (length y) - 2 * INR ((length y + 1) / 2))) in *.
  assert (U : unit (spread y / d)).
  { split; [apply Rmult_le_pos; auto; left; apply Rinv_0_lt_compat; auto|]. apply Rmult_le_reg_r with d; auto. unfold Rdiv. rewrite Rmult_assoc, Rinv_l by lra. lra. }
  eexists. split; [reflexivity|]. rewrite correct01_id; auto.
Qed.
Lemma non_separable_onto n p : (1 <= n)%nat -> unit p -> exists y, length y = n /\ Forall unit y /\ non_separable n y = Some p.
Proof.
  intros Hn Hp. set (v := ((n + 1) / 2)%nat). assert (Hv : (1 <= v <= n)%nat) by (unfold v; split; [apply Nat.div_le_lower_bound; lia|apply Nat.div_le_upper_bound; lia]).
  exists (repeat p v ++ repeat 0 (n - v)). assert (Hl : length (repeat p v ++ repeat 0 (n - v)) = n) by (rewrite app_length, !repeat_length; lia). split; auto.
  assert (Hu : Forall unit (repeat p v ++ repeat 0 (n - v))). { apply Forall_app. split; apply Forall_forall; intros a Ha; apply repeat_spec in Ha; subst; auto. split; lra. }
  split; auto. set (y := repeat p v ++ repeat 0 (n - v)) in *. destruct (non_separable_eq y) as (Hd & E); [intros Ey; rewrite Ey in Hl; cbn in Hl; lia|]. cbv zeta in *. rewrite Hl in *. rewrite E.
  assert (Es : spread y / (INR v * (1 + 2 * INR n - 2 * INR v)) = p).
  { unfold y. rewrite spread_two by (destruct Hp; auto). rewrite minus_INR by lia. replace (1 + 2 * (INR n - INR v)) with (1 + 2 * INR n - 2 * INR v) by ring. field. fold v in Hd. split; nra. }
  fold v. rewrite Es, correct01_id; auto.
Qed.
Lemma non_separable_zero n : (1 <= n)%nat -> non_separable n (repeat 0 n) = Some 0.
Proof.
  intros Hn. destruct (non_separable_eq (repeat 0 n)) as (Hd & E); [destruct n; [lia|discriminate]|]. rewrite repeat_length in *. cbv zeta in *. rewrite E, spread_zeros. unfold Rdiv. rewrite Rmult_0_l, correct01_id; auto. split; lra.
Qed.

(** ** shapes *)
Section Fan.
  Variables (up dn : R -> R).
  Hypothesis up_unit : forall a, unit a -> unit (up a).
  Hypothesis dn_unit : forall a, unit a -> unit (dn a).
  Lemma fan_length x : length (fan up dn x) = S (length x).
  Proof. induction x; cbn; auto. rewrite app_length, map_length, IHx. cbn. lia. Qed.
  Lemma fan_unit x : Forall unit x -> Forall unit (fan up dn x).
  Proof.
    induction 1 as [|a x Ha Hx IH]; cbn; [constructor; auto; split; lra|]. apply Forall_app. split; [|constructor; auto].
    apply Forall_map. eapply Forall_impl; [|exact IH]. intros b (B0 & B1). destruct (up_unit a Ha) as (U0 & U1). split; nra.
  Qed.
  Lemma vprod_unit x : Forall unit x -> unit (vprod (map up x)).
  Proof. unfold vprod. induction 1 as [|a x Ha Hx (IH0 & IH1)]; cbn; [split; lra|]. destruct (up_unit a Ha). split; nra. Qed.
  Lemma family_step a x m : (1 <= m <= S (length x))%nat -> Forall unit (a :: x) ->
    exists r, family up dn x m = Some r /\ family up dn (a :: x) m = Some (up a * r).
  Proof.
    intros Hm Hu. inversion Hu as [|? ? Ha Hx]; subst. pose proof (up_unit a Ha) as Ua. unfold family. cbv zeta. cbn [length]. destruct (Nat.eqb_spec m 1) as [->|Hm1].
    - eexists. split; [reflexivity|]. pose proof (vprod_unit x Hx) as U. rewrite !correct01_id; auto. unfold vprod. cbn [map fold_right]. pose proof (vprod_unit (a :: x) Hu) as Hv. unfold vprod in Hv. cbn in Hv. auto.
    - destruct (Nat.leb_spec m (S (length x))); [|lia]. destruct (Nat.leb_spec m (length x)) as [Hmx|Hmx].
      + replace (S (length x) - m + 1)%nat with (S (length x - m + 1)) by lia. cbn [nth_error firstn map]. destruct (nth_error x (length x - m + 1)) as [b|] eqn:Eb; [|apply nth_error_None in Eb; lia].
        assert (Hb : unit b) by (rewrite Forall_forall in Hx; apply Hx; eapply nth_error_In; eauto). pose proof (dn_unit b Hb) as Ub.
        assert (U : unit (vprod (map up (firstn (length x - m + 1) x)))) by (apply vprod_unit, Forall_forall; intros c Hc; rewrite Forall_forall in Hx; apply Hx; rewrite <- (firstn_skipn (length x - m + 1) x); apply in_app_iff; auto).
        assert (W : unit (vprod (map up (firstn (length x - m + 1) x)) * dn b)) by (destruct U, Ub; split; nra).
        eexists. split; [reflexivity|]. rewrite (correct01_id _ W). unfold vprod. cbn [fold_right]. fold (vprod (map up (firstn (length x - m + 1) x))). rewrite correct01_id; [f_equal; ring|]. destruct Ua, W. rewrite Rmult_assoc. split; nra.
      + replace (S (length x) - m + 1)%nat with 1%nat by lia. cbn [nth_error firstn map]. destruct x as [|b x]; [cbn in *; lia|]. cbn [nth_error]. inversion Hx as [|? ? Hb Hx']; subst. pose proof (dn_unit b Hb) as Ub.
        eexists. split; [reflexivity|]. unfold vprod. cbn [fold_right]. rewrite Rmult_1_r, !correct01_id; auto. destruct Ua, Ub. split; nra.
  Qed.
  Lemma family_fan x : Forall unit x -> mapo (family up dn x) (seq 1 (S (length x))) = Some (fan up dn x).
  Proof.
    induction x as [|a x IH]; intros Hu; [cbn; unfold family, vprod; cbn; rewrite correct01_id by (split; lra); auto|]. inversion Hu as [|? ? Ha Hx]; subst. specialize (IH Hx).
    cbn [length]. rewrite seq_S. cbn [fan].
    assert (Hm : forall l r, (forall m, In m l -> (1 <= m <= S (length x))%nat) -> mapo (family up dn x) l = Some r -> mapo (family up dn (a :: x)) (l ++ [S (S (length x))]) = Some (map (Rmult (up a)) r ++ [dn a])).
    { induction l as [|m l IHl]; intros r Hl E.
      - cbn in E. injection E as <-. cbn. unfold family. cbv zeta. cbn [length Nat.eqb]. destruct (Nat.leb_spec (S (S (length x))) (S (length x))); [lia|]. cbn [nth_error]. rewrite correct01_id; auto.
      - cbn [mapo app] in *. destruct (family_step a x m (Hl m (or_introl eq_refl)) Hu) as (r0 & E1 & E2). rewrite E1 in E. destruct (mapo (family up dn x) l) as [r'|] eqn:E'; [|discriminate]. injection E as <-.
        rewrite E2, (IHl r'); auto. intros; apply Hl; right; auto. }
    replace (1 + S (length x))%nat with (S (S (length x))) by lia. apply Hm; auto. intros m H. apply in_seq in H. lia.
  Qed.
  (** ** no vector of the family is at least as good as another *)
  Hypothesis up_mono : forall a b, unit a -> unit b -> a < b -> up a < up b.
  Hypothesis dn_mono : forall a b, unit a -> unit b -> a < b -> dn b < dn a.
  Hypothesis up_0 : up 0 = 0.
  Hypothesis up_1 : 0 < up 1.
  Hypothesis dn_0 : 0 < dn 0.
  Lemma up_zero a : unit a -> up a = 0 -> a = 0.
  Proof. intros (H0 & H1) H. destruct (Req_dec a 0); auto. assert (up 0 < up a) by (apply up_mono; [split; lra|split; lra|lra]). lra. Qed.
  Lemma fan_pos x : Forall unit x -> exists a, In a (fan up dn x) /\ 0 < a.
  Proof.
    induction 1 as [|a x Ha Hx (b & Hb & Pb)]; cbn; [exists 1; split; auto; lra|]. destruct (Req_dec (up a) 0) as [Hz|Hz].
    - exists (dn a). split; [apply in_app_iff; right; left; auto|]. apply up_zero in Hz; auto. subst; auto.
    - exists (up a * b). split; [apply in_app_iff; left; apply in_map; auto|]. destruct (up_unit a Ha). apply Rmult_lt_0_compat; lra.
  Qed.
  Lemma wdom_last a b c d : wdom (a ++ [c]) (b ++ [d]) -> length a = length b -> wdom a b /\ c <= d.
  Proof.
    unfold wdom. revert b. induction a as [|x a IH]; intros [|y b] H Hl; try discriminate; cbn in H.
    - inversion H; subst. auto.
    - inversion H; subst. destruct (IH b) as (H1 & H2); auto.
  Qed.
  Lemma map_mult c d l : map (Rmult c) (map (Rmult d) l) = map (Rmult (c * d)) l.
  Proof. rewrite map_map. apply map_ext. intros. ring. Qed.
  Lemma wdom_in l b : wdom l b -> forall a, In a l -> exists b', In b' b /\ a <= b'.
  Proof. induction 1; intros c [].
    - subst. exists y. split; [left|]; auto.
    - destruct (IHForall2 c H1) as (b' & ? & ?). exists b'. split; [right|]; auto.
  Qed.
  Lemma fan_antichain x : forall x' c c', length x = length x' -> Forall unit x -> Forall unit x' -> 0 < c' <= c ->
    wdom (map (Rmult c) (fan up dn x)) (map (Rmult c') (fan up dn x')) -> c = c' /\ fan up dn x = fan up dn x'.
  Proof.
    induction x as [|a x IH]; intros [|a' x'] c c' Hl Hx Hx' Hc H; try discriminate.
    - cbn in H. inversion H; subst. split; auto. lra.
    - inversion Hx as [|? ? Ha Hx1]; subst. inversion Hx' as [|? ? Ha' Hx1']; subst. injection Hl as Hl. cbn [fan] in *. rewrite !map_app in H. cbn [map] in H.
      apply wdom_last in H; [|rewrite !map_length, !fan_length; auto]. destruct H as (H & Hd). rewrite !map_mult in H.
      assert (Haa : a' <= a).
      { destruct (Rle_dec a' a); auto. exfalso. pose proof (dn_mono a a' Ha Ha' ltac:(lra)). destruct (dn_unit a Ha). destruct (dn_unit a' Ha'). nra. }
      destruct (up_unit a Ha) as (U0 & U1). destruct (up_unit a' Ha') as (V0 & V1).
      assert (Huu : up a' <= up a) by (destruct (Req_dec a' a) as [->|]; [lra|]; left; apply up_mono; auto; lra).
      destruct (Req_dec (up a') 0) as [Hz|Hz].
      + assert (a' = 0) by (apply up_zero; auto). subst a'. destruct (fan_pos x Hx1) as (b & Hb & Pb).
        assert (up a = 0).
        { destruct (Req_dec (up a) 0); auto. exfalso. apply (in_map (Rmult (c * up a))) in Hb. destruct (wdom_in _ _ H _ Hb) as (b' & Hb' & Hle). apply in_map_iff in Hb'. destruct Hb' as (q & <- & _).
          rewrite Hz in Hle. assert (0 < c * up a * b) by (apply Rmult_lt_0_compat; auto; apply Rmult_lt_0_compat; lra). nra. }
        assert (a = 0) by (apply up_zero; auto). subst a. assert (c = c') by (apply Rle_antisym; [apply Rmult_le_reg_r with (dn 0); auto|lra]). split; auto.
        f_equal. rewrite Hz. assert (Z : forall l, map (Rmult 0) l = repeat 0 (length l)) by (induction l; cbn; auto; rewrite IHl, Rmult_0_l; auto). rewrite !Z, !fan_length, Hl. auto.
      + assert (P : 0 < c' * up a') by (apply Rmult_lt_0_compat; lra). destruct (IH x' (c * up a) (c' * up a') Hl Hx1 Hx1') as (E1 & E2); auto; [split; auto; nra|].
        assert (c = c') by nra. subst c'. assert (up a = up a') by nra. assert (a = a').
        { destruct (Req_dec a a'); auto. exfalso. pose proof (up_mono a' a Ha' Ha ltac:(lra)). lra. }
        subst a'. split; auto. f_equal. rewrite E2. auto.
  Qed.
End Fan.
