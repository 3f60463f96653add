From Coq Require Import List Arith Bool ZArith Lia Reals Lra Psatz.
From Verif Require Import ListAux ProbModel NewtonModel BenchModel BenchSpec BenchBase BenchTrig WfgModel WfgBase WfgShape.
Import ListNotations.
Open Scope R_scope.

Lemma mapo_app {A B} (f : A -> option B) a b : mapo f (a ++ b) = let? r := mapo f a in let? s := mapo f b in Some (r ++ s).
Proof. induction a as [|x a IH]; cbn; [destruct (mapo f b); auto|]. destruct (f x); auto. rewrite IH. destruct (mapo f a); auto. destruct (mapo f b); auto. Qed.
Lemma mapo_repeat {A B} (f : A -> option B) a b n : f a = Some b -> mapo f (repeat a n) = Some (repeat b n).
Proof. intros H. induction n; cbn; auto. rewrite H, IHn. auto. Qed.
Lemma mapo_onto {A B} (P : A -> Prop) (Q : B -> Prop) (f : A -> option B) : (forall b, Q b -> exists a, P a /\ f a = Some b) ->
  forall l, Forall Q l -> exists l', length l' = length l /\ Forall P l' /\ mapo f l' = Some l.
Proof.
  intros H l. induction 1 as [|b l Hb Hl (l' & E & HP & Em)]; [exists []; cbn; auto|]. destruct (H b Hb) as (a & Ha & Ea). exists (a :: l'). cbn. rewrite Ea, Em, E. auto.
Qed.
Lemma mapo_seq {A} (f : R -> option A) pre mid post : mapo (fun i => let? a := nth_error (pre ++ mid ++ post) i in f a) (seq (length pre) (length mid)) = mapo f mid.
Proof.
  revert pre. induction mid as [|a mid IH]; intros pre; cbn [length seq mapo]; auto. rewrite nth_error_app2, Nat.sub_diag by lia. cbn [nth_error app]. destruct (f a); auto.
  specialize (IH (pre ++ [a])). rewrite app_length in IH. cbn in IH. rewrite Nat.add_1_r, <- app_assoc in IH. cbn in IH. rewrite IH. reflexivity.
Qed.
Lemma unit_0 : unit 0.
Proof. split; lra. Qed.
Lemma unit_35 : unit 0.35.
Proof. split; lra. Qed.
Lemma forall_repeat {A} (P : A -> Prop) a n : P a -> Forall P (repeat a n).
Proof. intros H. apply Forall_forall. intros b Hb. apply repeat_spec in Hb. subst; auto. Qed.
Lemma firstn_exact {A} (a b : list A) n : length a = n -> firstn n (a ++ b) = a.
Proof. intros <-. rewrite firstn_app, Nat.sub_diag, firstn_all. cbn. apply app_nil_r. Qed.
Lemma skipn_exact {A} (a b : list A) n : length a = n -> skipn n (a ++ b) = b.
Proof. intros <-. rewrite skipn_app, Nat.sub_diag, skipn_all. auto. Qed.
Lemma forall_skipn {A} (P : A -> Prop) n l : Forall P l -> Forall P (skipn n l).
Proof. intros H. rewrite <- (firstn_skipn n l) in H. apply Forall_app in H. apply H. Qed.
Lemma forall_firstn {A} (P : A -> Prop) n l : Forall P l -> Forall P (firstn n l).
Proof. intros H. rewrite <- (firstn_skipn n l) in H. apply Forall_app in H. apply H. Qed.

(** ** groups *)
Lemma slice_length {A} a b (l : list A) : (b <= length l)%nat -> length (slice a b l) = (b - a)%nat.
Proof. intros H. unfold slice. rewrite firstn_length, skipn_length. lia. Qed.
Lemma slice_forall {A} (P : A -> Prop) a b l : Forall P l -> Forall P (slice a b l).
Proof. intros H. unfold slice. apply forall_firstn, forall_skipn. auto. Qed.
Section Groups.
  Variables (M k : nat).
  Hypothesis HM : (2 <= M)%nat.
  Hypothesis Hk : (1 <= k)%nat.
  Hypothesis Hg : (k mod (M - 1) = 0)%nat.
  Let gap := (k / (M - 1))%nat.
  Lemma gap_eq : k = (gap * (M - 1))%nat.
  Proof. unfold gap. pose proof (Nat.div_mod k (M - 1) ltac:(lia)). lia. Qed.
  Lemma gap_pos : (1 <= gap)%nat.
  Proof. pose proof gap_eq. destruct gap; lia. Qed.
  Lemma groups_in y g : (k <= length y)%nat -> In g (groups M k y) -> length g = gap /\ forall P, Forall P y -> Forall P g.
  Proof.
    intros Hy H. unfold groups in H. fold gap in H. cbv zeta in H. apply in_map_iff in H. destruct H as (i & <- & Hi). apply in_seq in Hi. pose proof gap_eq as E.
    split; [|intros P HP; apply slice_forall; auto]. rewrite slice_length by nia. nia.
  Qed.
  Lemma groups_length {A} (f : nat -> A) : length (map f (seq 1 (M - 1))) = (M - 1)%nat.
  Proof. rewrite map_length, seq_length. auto. Qed.
  Lemma groups_concat L r : length L = (M - 1)%nat -> Forall (fun g => length g = gap) L -> groups M k (concat L ++ r) = L.
  Proof.
    intros HL HF. unfold groups. fold gap. cbv zeta. rewrite <- HL.
    enough (H : forall L j pre, Forall (fun g => length g = gap) L -> length pre = (j * gap)%nat ->
      map (fun i => slice ((i - 1) * gap) (i * gap) (pre ++ concat L ++ r)) (seq (S j) (length L)) = L) by (apply (H L 0%nat []); auto).
    clear. induction L as [|g L IH]; intros j pre HF Hp; cbn [length seq map]; auto. inversion HF as [|? ? Hgl HF']; subst. f_equal.
    - unfold slice. replace (S j - 1)%nat with j by lia. rewrite skipn_exact by lia. cbn [concat]. rewrite <- app_assoc. apply firstn_exact. rewrite Hgl. lia.
    - cbn [concat]. specialize (IH (S j) (pre ++ g) HF'). rewrite app_length in IH. rewrite <- IH at 2 by lia. apply map_ext. intros i. rewrite <- !app_assoc. reflexivity.
  Qed.
  Lemma concat_length_gap L : length L = (M - 1)%nat -> Forall (fun g => length g = gap) L -> length (@concat R L) = k.
  Proof.
    intros HL HF. rewrite gap_eq, <- HL. clear - HF. induction HF as [|g L Hg HF IH]; cbn; [lia|]. rewrite app_length, IH. nia.
  Qed.
  (** the groups of some list reduce to given numbers *)
  Lemma groups_onto (f : list R -> option R) p : length p = (M - 1)%nat -> Forall unit p ->
    (forall a, unit a -> exists g, length g = gap /\ Forall unit g /\ f g = Some a) ->
    exists q, length q = k /\ Forall unit q /\ forall r, mapo f (groups M k (q ++ r)) = Some p.
  Proof.
    intros Hl Hp Hf. destruct (mapo_onto (fun g => length g = gap /\ Forall unit g) unit f) with (l := p) as (L & HL & HF & E); auto.
    { intros b Hb. destruct (Hf b Hb) as (g & G1 & G2 & G3). exists g. auto. }
    assert (HF1 : Forall (fun g => length g = gap) L) by (eapply Forall_impl; [|exact HF]; intros a Ha; apply Ha).
    exists (concat L). split; [apply concat_length_gap; auto; lia|]. split.
    - apply Forall_concat. eapply Forall_impl; [|exact HF]. intros a Ha; apply Ha.
    - intros r. rewrite groups_concat by (auto; lia). auto.
  Qed.
  Lemma groups_map_length y : length (groups M k y) = (M - 1)%nat.
  Proof. apply groups_length. Qed.
  Lemma groups_unit (f : list R -> option R) y : (k <= length y)%nat -> Forall unit y ->
    (forall g, length g = gap -> Forall unit g -> exists a, f g = Some a /\ unit a) -> exists p, mapo f (groups M k y) = Some p /\ length p = (M - 1)%nat /\ Forall unit p.
  Proof.
    intros Hl Hu Hf. destruct (mapo_forall f unit (groups M k y)) as (p & E & El & Ep).
    - intros g Hin. destruct (groups_in y g Hl Hin) as (G1 & G2). apply Hf; auto.
    - exists p. rewrite groups_map_length in El. auto.
  Qed.
  Lemma groups_const a r : length a = (M - 1)%nat -> groups M k (concat (map (fun c => repeat c gap) a) ++ r) = map (fun c => repeat c gap) a.
  Proof. intros H. apply groups_concat; [rewrite map_length; auto|]. apply Forall_map, Forall_forall. intros c _. apply repeat_length. Qed.
End Groups.

Lemma nonnil {A} (a : list A) : (1 <= length a)%nat -> a <> [].
Proof. destruct a; cbn; [lia|discriminate]. Qed.
Lemma combine_in {A B} (a : A) (b : B) la lb : In (a, b) (combine la lb) -> In a la /\ In b lb.
Proof. intros H. split; [eapply in_combine_l|eapply in_combine_r]; eauto. Qed.
(** ** one stage: what it does to numbers in [0, 1] *)
Definition good (n : nat) (y : list R) : Prop := length y = n /\ Forall unit y.
Lemma mapo_good f y m : (forall a, unit a -> exists b, f a = Some b /\ unit b) -> good m y -> exists z, mapo f y = Some z /\ good m z.
Proof.
  intros Hf (H1 & H2). destruct (mapo_forall f unit y) as (d & -> & Ld & Ud).
  { intros a Ha. apply Hf. rewrite Forall_forall in H2. auto. }
  exists d. split; auto. split; auto. lia.
Qed.
Fixpoint chain (m : nat) (y : list R) : option (list R) :=
  match m, y with
  | O, _ => Some y
  | S m, a :: r => let? u := uniform_sum r in let? b := param_dependent a u in let? g := chain m r in Some (b :: g)
  | S m, [] => None
  end.
Lemma loop_chain m : forall pre y, (m <= length y)%nat -> wfg7_loop (seq (length pre) m) (pre ++ y) = let? g := chain m y in Some (pre ++ g).
Proof.
  induction m as [|m IH]; intros pre y Hm; cbn [seq wfg7_loop chain]; auto. destruct y as [|a r]; [cbn in Hm; lia|]. rewrite nth_error_app2, Nat.sub_diag by lia. cbn [nth_error].
  replace (skipn (S (length pre)) (pre ++ a :: r)) with r. 2:{ replace (pre ++ a :: r) with ((pre ++ [a]) ++ r) by (rewrite <- app_assoc; auto). rewrite skipn_exact; auto. rewrite app_length. cbn. lia. }
  destruct (uniform_sum r) as [u|]; auto. destruct (param_dependent a u) as [b|]; auto. unfold set_at. rewrite firstn_exact by auto.
  replace (skipn (S (length pre)) (pre ++ a :: r)) with r. 2:{ replace (pre ++ a :: r) with ((pre ++ [a]) ++ r) by (rewrite <- app_assoc; auto). rewrite skipn_exact; auto. rewrite app_length. cbn. lia. }
  specialize (IH (pre ++ [b]) r). rewrite app_length in IH. cbn [length] in IH. rewrite Nat.add_1_r in IH. rewrite <- app_assoc in IH. cbn [app] in IH. rewrite IH by (cbn in Hm; lia). destruct (chain m r); auto. rewrite <- app_assoc. reflexivity.
Qed.
Lemma chain_good m : forall y, (m < length y)%nat -> Forall unit y -> exists z, chain m y = Some z /\ good (length y) z.
Proof.
  induction m as [|m IH]; intros y Hm Hu; cbn [chain]; [exists y; split; auto; split; auto|]. destruct y as [|a r]; [cbn in Hm; lia|]. cbn in Hm. inversion Hu as [|? ? Ha Hr]; subst.
  destruct (uniform_unit r) as (u & _ & -> & Uu); auto; [apply nonnil; lia|]. destruct (param_dependent_unit a u Ha Uu) as (b & -> & Ub). destruct (IH r) as (g & -> & G1 & G2); auto; [lia|]. exists (b :: g). split; auto. split; cbn; auto.
Qed.
Lemma chain_onto q : forall t, t <> [] -> Forall unit q -> Forall unit t -> exists y, good (length q) y /\ chain (length q) (y ++ t) = Some (q ++ t).
Proof.
  induction q as [|a q IH]; intros t Ht Hq Hu; cbn [length chain]; [exists []; split; [split; auto|reflexivity]|]. inversion Hq as [|? ? Ha Hq']; subst. destruct (IH t Ht Hq' Hu) as (y & (Y1 & Y2) & E).
  destruct (uniform_unit (y ++ t)) as (u & _ & Eu & Uu); [destruct y; [auto|discriminate]|apply Forall_app; auto|]. pose proof (pd_exponent_pos u Uu). exists (root a (pd_exponent u) :: y). split.
  - split; [cbn; auto|]. constructor; auto. apply root_unit; auto. lra.
  - cbn [app chain]. rewrite Eu, param_dependent_root by auto. rewrite E. reflexivity.
Qed.
Lemma t9_chain m : forall pre y, (m <= length y)%nat ->
  (let? d := mapo (fun i => let? yi := nth_error (pre ++ y) i in let? u := uniform_sum (skipn (S i) (pre ++ y)) in param_dependent yi u) (seq (length pre) m) in Some (d ++ skipn m y)) = chain m y.
Proof.
  induction m as [|m IH]; intros pre y Hm; cbn [seq mapo chain]; auto. destruct y as [|a r]; [cbn in Hm; lia|]. rewrite nth_error_app2, Nat.sub_diag by lia. cbn [nth_error].
  replace (skipn (S (length pre)) (pre ++ a :: r)) with r. 2:{ replace (pre ++ a :: r) with ((pre ++ [a]) ++ r) by (rewrite <- app_assoc; auto). rewrite skipn_exact; auto. rewrite app_length. cbn. lia. }
  destruct (uniform_sum r) as [u|]; auto. destruct (param_dependent a u) as [b|]; auto.
  specialize (IH (pre ++ [a]) r). rewrite app_length in IH. cbn [length] in IH. rewrite Nat.add_1_r in IH. rewrite <- app_assoc in IH. cbn [app] in IH. rewrite <- IH by (cbn in Hm; lia). cbn [skipn].
  destruct (mapo _ (seq (S (length pre)) m)); auto.
Qed.
Fixpoint grow (pre y : list R) : option (list R) :=
  match y with [] => Some [] | a :: r => let? u := uniform_sum pre in let? b := param_dependent a u in let? g := grow (pre ++ [a]) r in Some (b :: g) end.
Lemma t8_grow y : forall pre, mapo (fun i => let? yi := nth_error (pre ++ y) i in let? u := uniform_sum (firstn i (pre ++ y)) in param_dependent yi u) (seq (length pre) (length y)) = grow pre y.
Proof.
  induction y as [|a y IH]; intros pre; cbn [length seq mapo grow]; auto. rewrite nth_error_app2, Nat.sub_diag by lia. cbn [nth_error]. rewrite firstn_exact by auto. destruct (uniform_sum pre) as [u|]; auto. destruct (param_dependent a u) as [b|]; auto.
  specialize (IH (pre ++ [a])). rewrite app_length in IH. cbn [length] in IH. rewrite Nat.add_1_r in IH. rewrite <- app_assoc in IH. cbn [app] in IH. rewrite IH. reflexivity.
Qed.
Lemma grow_good y : forall pre, pre <> [] -> Forall unit pre -> Forall unit y -> exists z, grow pre y = Some z /\ good (length y) z.
Proof.
  induction y as [|a y IH]; intros pre Hp Hu Hy; cbn [grow]; [exists []; split; auto; split; auto|]. inversion Hy as [|? ? Ha Hy']; subst. destruct (uniform_unit pre) as (u & _ & -> & Uu); auto.
  destruct (param_dependent_unit a u Ha Uu) as (b & -> & Ub). destruct (IH (pre ++ [a])) as (g & -> & G1 & G2); auto; [destruct pre; discriminate|apply Forall_app; auto|]. exists (b :: g). split; auto. split; cbn; auto.
Qed.
Section Stage.
  Variables (n M k l : nat).
  Hypothesis HM : (2 <= M)%nat.
  Hypothesis Hk : (1 <= k)%nat.
  Hypothesis Hg : (k mod (M - 1) = 0)%nat.
  Hypothesis Hn : n = (k + l)%nat.
  Hypothesis Hl : (1 <= l)%nat.
  Let gap := (k / (M - 1))%nat.
  Lemma gap1 : (1 <= gap)%nat.
  Proof. unfold gap. apply gap_pos; auto. Qed.
  Lemma skip_len y : good n y -> length (skipn k y) = l.
  Proof. intros (H & _). rewrite skipn_length. lia. Qed.

  (** the result of a reduction *)
  Definition reduced (t : option (list R)) : Prop := exists p d, t = Some (p ++ [d]) /\ length p = (M - 1)%nat /\ Forall unit p /\ unit d.
  Lemma t4_good y : good n y -> reduced (wfg4_t2 M k y).
  Proof.
    intros (H1 & H2). unfold wfg4_t2. destruct (groups_unit M k HM Hk Hg uniform_sum y) as (p & -> & Lp & Up); auto; [lia| |].
    { intros g G1 G2. destruct (uniform_unit g) as (m & _ & E & U); auto. { apply nonnil. pose proof (gap_pos M k HM Hk Hg). lia. } exists m. auto. }
    destruct (uniform_unit (skipn k y)) as (d & _ & -> & Ud); [apply nonnil; rewrite skip_len by (split; auto); lia|apply forall_skipn; auto|]. exists p, d. auto.
  Qed.
  Lemma t4_onto p : length p = (M - 1)%nat -> Forall unit p -> exists q, good k q /\ wfg4_t2 M k (q ++ repeat 0 l) = Some (p ++ [0]).
  Proof.
    intros H1 H2. destruct (groups_onto M k HM Hk Hg uniform_sum p H1 H2) as (q & Q1 & Q2 & Q3).
    { intros a Ha. exists (repeat a gap). split; [apply repeat_length|]. split; [apply forall_repeat; auto|]. apply uniform_const; auto. apply gap1. }
    exists q. split; [split; auto|]. unfold wfg4_t2. rewrite Q3, skipn_exact by auto. rewrite uniform_const by (auto; apply unit_0). reflexivity.
  Qed.
  Lemma t6_good y : good n y -> reduced (wfg6_t2 n M k y).
  Proof.
    intros (H1 & H2). unfold wfg6_t2. destruct (groups_unit M k HM Hk Hg (non_separable (k / (M - 1))) y) as (p & -> & Lp & Up); auto; [lia| |].
    { intros g G1 G2. rewrite <- G1. apply non_separable_unit; auto. apply nonnil. pose proof (gap_pos M k HM Hk Hg). lia. }
    replace (n - k)%nat with (length (skipn k y)) by (rewrite skipn_length; lia). destruct (non_separable_unit (skipn k y)) as (d & -> & Ud); [apply nonnil; rewrite skip_len by (split; auto); lia|apply forall_skipn; auto|]. exists p, d. auto.
  Qed.
  Lemma t6_onto p : length p = (M - 1)%nat -> Forall unit p -> exists q, good k q /\ wfg6_t2 n M k (q ++ repeat 0 l) = Some (p ++ [0]).
  Proof.
    intros H1 H2. destruct (groups_onto M k HM Hk Hg (non_separable (k / (M - 1))) p H1 H2) as (q & Q1 & Q2 & Q3).
    { intros a Ha. apply non_separable_onto; auto. apply gap1. }
    exists q. split; [split; auto|]. unfold wfg6_t2. rewrite Q3, skipn_exact by auto. replace (n - k)%nat with l by lia. rewrite non_separable_zero by auto. reflexivity.
  Qed.
  Lemma weights_pos : Forall (fun b => 0 < b) (weights n) /\ length (weights n) = n.
  Proof.
    unfold weights. split; [|rewrite map_length, seq_length; auto]. apply Forall_map, Forall_forall. intros i Hi. apply in_seq in Hi. apply Rmult_lt_0_compat; [lra|]. apply lt_0_INR. lia.
  Qed.
  Lemma t1_good y : good n y -> reduced (wfg1_t4 n M k y).
  Proof.
    intros (H1 & H2). destruct weights_pos as (W1 & W2). pose proof (gap_pos M k HM Hk Hg) as Hgp. unfold wfg1_t4.
    destruct (mapo_forall (fun g => weighted_sum (fst g) (snd g)) unit (combine (groups M k y) (groups M k (weights n)))) as (p & -> & Lp & Up).
    { intros (g, w) Hin. apply combine_in in Hin. destruct Hin as (Hin1 & Hin2). destruct (groups_in M k HM Hk Hg y g ltac:(lia) Hin1) as (G1 & G2). destruct (groups_in M k HM Hk Hg (weights n) w ltac:(lia) Hin2) as (G3 & G4).
      cbn [fst snd]. apply weighted_unit; auto; [apply nonnil; lia|congruence]. }
    rewrite combine_length, !groups_map_length, Nat.min_id in Lp.
    destruct (weighted_unit (slice k n y) (slice k n (weights n))) as (d & -> & Ud); [apply nonnil; rewrite slice_length; lia|rewrite !slice_length; lia|apply slice_forall; auto|apply slice_forall; auto|]. exists p, d. auto.
  Qed.
  Lemma slice_end {A} (q r : list A) : length q = k -> length r = l -> slice k n (q ++ r) = r.
  Proof. intros H1 H2. unfold slice. rewrite skipn_exact by auto. apply firstn_all2. lia. Qed.
  Lemma t1_onto p : length p = (M - 1)%nat -> Forall unit p -> exists q, good k q /\ wfg1_t4 n M k (q ++ repeat 0 l) = Some (p ++ [0]).
  Proof.
    intros H1 H2. destruct weights_pos as (W1 & W2). pose proof (gap_pos M k HM Hk Hg) as Hgp. fold gap in Hgp. exists (concat (map (fun c => repeat c gap) p)). split; [split|].
    - apply (concat_length_gap M k HM Hk Hg); [rewrite map_length; auto|]. apply Forall_map, Forall_forall. intros c _. apply repeat_length.
    - apply Forall_concat, Forall_map. eapply Forall_impl; [|exact H2]. intros a Ha. apply forall_repeat; auto.
    - unfold wfg1_t4. rewrite (groups_const M k p) by auto. fold gap.
      assert (HW : Forall (fun w => length w = gap /\ Forall (fun b => 0 < b) w) (groups M k (weights n))).
      { apply Forall_forall. intros w Hw. destruct (groups_in M k HM Hk Hg (weights n) w ltac:(lia) Hw) as (G3 & G4). split; auto. }
      assert (HL : length (groups M k (weights n)) = length p) by (rewrite groups_map_length; lia).
      assert (E : mapo (fun g => weighted_sum (fst g) (snd g)) (combine (map (fun c => repeat c gap) p) (groups M k (weights n))) = Some p).
      { clear H1. revert HL HW. generalize (groups M k (weights n)). induction H2 as [|a p Ha Hp IH]; intros [|w ws] HL HW; try discriminate; cbn [map combine mapo]; auto. injection HL as HL. inversion HW as [|? ? (HW1 & HW2) HW']; subst.
        cbn [fst snd]. rewrite <- HW1 at 1. rewrite weighted_const; auto; [|apply nonnil; lia]. rewrite IH; auto. }
      rewrite E. rewrite slice_end; [|apply (concat_length_gap M k HM Hk Hg); [rewrite map_length; auto|apply Forall_map, Forall_forall; intros c _; apply repeat_length]|apply repeat_length].
      assert (Hsl : length (slice k n (weights n)) = l) by (rewrite slice_length; lia). rewrite <- Hsl at 1. rewrite weighted_const; [reflexivity|apply nonnil; lia|apply unit_0|apply slice_forall; auto].
  Qed.
  Lemma from_k_good f y : (forall a, unit a -> exists b, f a = Some b /\ unit b) -> good n y -> exists z, from_k k f y = Some z /\ good n z.
  Proof.
    intros Hf (H1 & H2). unfold from_k. destruct (mapo_forall f unit (skipn k y)) as (d & -> & Ld & Ud).
    { intros a Ha. apply Hf. pose proof (forall_skipn _ k y H2) as Hs. rewrite Forall_forall in Hs. auto. }
    eexists. split; [reflexivity|]. split; [rewrite app_length, firstn_length, Ld, skipn_length; lia|]. apply Forall_app. split; auto. apply forall_firstn; auto.
  Qed.
  Lemma from_k_opt f q a b : length q = k -> f a = Some b -> from_k k f (q ++ repeat a l) = Some (q ++ repeat b l).
  Proof. intros H1 H2. unfold from_k. rewrite skipn_exact, firstn_exact by auto. rewrite (mapo_repeat f a b l H2). auto. Qed.
  (** *** WFG2, WFG3 *)
  Lemma w2_good y : (2 <= l)%nat -> good n y -> reduced (let? z := wfg2_t2 n k y in wfg2_t3 n M k z).
  Proof.
    intros Hl2 (H1 & H2). unfold wfg2_t2. set (h := ((n - k) / 2)%nat). assert (Hh : (1 <= h /\ 2 * h <= l)%nat).
    { unfold h. replace (n - k)%nat with l by lia. split; [apply Nat.div_le_lower_bound; lia|]. apply Nat.mul_div_le; lia. }
    destruct (mapo_forall (fun i => non_separable 2 (slice (k + 2 * (i - k)) (k + 2 * (i - k) + 2) y)) unit (seq k h)) as (d & -> & Ld & Ud).
    { intros i Hi. apply in_seq in Hi. set (s := slice (k + 2 * (i - k)) (k + 2 * (i - k) + 2) y). assert (Hs : length s = 2%nat) by (unfold s; rewrite slice_length; lia).
      rewrite <- (f_equal (fun m => non_separable m s) Hs). apply non_separable_unit; [apply nonnil; lia|apply slice_forall; auto]. }
    rewrite seq_length in Ld. unfold wfg2_t3. set (z := firstn k y ++ d). assert (Hz : length z = (k + h)%nat) by (unfold z; rewrite app_length, firstn_length; lia).
    assert (Uz : Forall unit z) by (apply Forall_app; split; auto; apply forall_firstn; auto).
    destruct (groups_unit M k HM Hk Hg uniform_sum z) as (p & -> & Lp & Up); auto; [lia| |].
    { intros g G1 G2. destruct (uniform_unit g) as (m & _ & E & U); auto. { apply nonnil. pose proof (gap_pos M k HM Hk Hg). lia. } exists m. auto. }
    fold h. destruct (uniform_unit (slice k (k + h) z)) as (e & _ & -> & Ue); [apply nonnil; rewrite slice_length; lia|apply slice_forall; auto|]. exists p, e. auto.
  Qed.
  Lemma w2_onto p : (2 <= l)%nat -> length p = (M - 1)%nat -> Forall unit p -> exists q, good k q /\ (let? z := wfg2_t2 n k (q ++ repeat 0 l) in wfg2_t3 n M k z) = Some (p ++ [0]).
  Proof.
    intros Hl2 H1 H2. destruct (groups_onto M k HM Hk Hg uniform_sum p H1 H2) as (q & Q1 & Q2 & Q3).
    { intros a Ha. exists (repeat a gap). split; [apply repeat_length|]. split; [apply forall_repeat; auto|]. apply uniform_const; auto. apply gap1. }
    exists q. split; [split; auto|]. unfold wfg2_t2. set (h := ((n - k) / 2)%nat). assert (Hh : (1 <= h /\ 2 * h <= l)%nat).
    { unfold h. replace (n - k)%nat with l by lia. split; [apply Nat.div_le_lower_bound; lia|]. apply Nat.mul_div_le; lia. }
    rewrite (mapo_ok _ (fun _ => 0)).
    2:{ intros i Hi. apply in_seq in Hi. assert (E : slice (k + 2 * (i - k)) (k + 2 * (i - k) + 2) (q ++ repeat 0 l) = repeat 0 2).
        { unfold slice. rewrite skipn_app, skipn_all2 by lia. cbn [app]. replace (k + 2 * (i - k) - length q)%nat with (2 * (i - k))%nat by lia.
          replace l with (2 * (i - k) + (2 + (l - 2 * (i - k) - 2)))%nat by lia. rewrite repeat_app, skipn_exact by apply repeat_length. replace (k + 2 * (i - k) + 2 - (k + 2 * (i - k)))%nat with 2%nat by lia. rewrite repeat_app. apply firstn_exact. reflexivity. }
        rewrite E. apply non_separable_zero. lia. }
    assert (Em : map (fun _ : nat => 0) (seq k h) = repeat 0 h). { clear. generalize k. induction h; intros j; cbn; f_equal; auto. }
    rewrite Em, firstn_exact by auto. unfold wfg2_t3. rewrite Q3. fold h. unfold slice. rewrite skipn_exact by auto. replace (k + h - k)%nat with h by lia. rewrite firstn_all2 by (rewrite repeat_length; lia).
    rewrite uniform_const by (try lia; apply unit_0). reflexivity.
  Qed.

  (** *** WFG7 *)
  (** *** WFG9: the same, up to the last entry *)
  Lemma t9_eq y : good n y -> wfg9_t1 n y = chain (n - 1) y.
  Proof. intros (H1 & _). unfold wfg9_t1. apply (t9_chain (n - 1) []). lia. Qed.
  Lemma t92_eq q r : length q = k -> length r = l -> wfg9_t2 n k (q ++ r) = let? a := mapo (shift_deceptive 0.35 0.001 0.05) q in let? b := mapo (shift_multi_modal 30 95 0.35) r in Some (a ++ b).
  Proof.
    intros H1 H2. unfold wfg9_t2. pose proof (mapo_seq (shift_deceptive 0.35 0.001 0.05) [] q r) as E1. cbn [app length] in E1. rewrite H1 in E1. rewrite E1.
    pose proof (mapo_seq (shift_multi_modal 30 95 0.35) q r []) as E2. rewrite app_nil_r, H1, H2 in E2. replace (n - k)%nat with l by lia. rewrite E2. reflexivity.
  Qed.
  (** *** WFG8 *)
  Lemma t8_eq q r : length q = k -> length r = l -> wfg8_t1 n k (q ++ r) = let? g := grow q r in Some (q ++ g).
  Proof. intros H1 H2. unfold wfg8_t1. pose proof (t8_grow r q) as E. rewrite H1, H2 in E. replace (n - k)%nat with l by lia. rewrite E, firstn_exact by auto. reflexivity. Qed.
End Stage.
