From Coq Require Import String List Arith Bool Reals ZArith Lia Lra Permutation.
From Verif Require Import Num Exn ListAux NewtonModel RefModel RefProof HVXModel HVXProof HVXTop IndProof ProbModel ProbProof MoeaModel MoeaSpec.
Import ListNotations.
Open Scope R_scope.

(** * counting *)
Lemma count_filter (p : nat -> bool) P n : (forall s, (s < n)%nat -> p s = true <-> P s) -> counts P n (length (filter p (seq 0 n))).
Proof.
  intros H. exists (filter p (seq 0 n)). split; [apply NoDup_filter, seq_NoDup|]. split; auto. intros s. rewrite filter_In, in_seq. split.
  - intros [Hs Hp]. split; [lia|]. apply H; auto; lia.
  - intros [Hs Hp]. split; [lia|]. apply H; auto.
Qed.
Lemma counts_unique P n c d : counts P n c -> counts P n d -> c = d.
Proof.
  intros (l & Nl & <- & Hl) (l' & Nl' & <- & Hl'). apply Permutation_length. apply NoDup_Permutation; auto. intros s. rewrite Hl, Hl'. tauto.
Qed.
Lemma sumn_count (p : nat -> bool) n : sumn n (fun s => if p s then 1 else 0) = INR (length (filter p (seq 0 n))).
Proof.
  induction n as [|n IH]; auto. rewrite seq_S, filter_app, app_length, plus_INR. cbn [sumn]. rewrite IH. f_equal. simpl. destruct (p n); auto.
Qed.

(** * column sums and selections *)
Lemma add_col_length r c : length (add_col r c) = length c.
Proof. revert c. induction r as [|b r IH]; intros [|n c]; simpl; auto. Qed.
Lemma col_sums_length ns dom : length (col_sums ns dom) = ns.
Proof. unfold col_sums. induction dom; simpl; [apply repeat_length|]. rewrite add_col_length. auto. Qed.
Lemma add_col_nth r : forall c s, length r = length c -> (s < length c)%nat -> nth s (add_col r c) 0%nat = ((if nth s r false then 1 else 0) + nth s c 0)%nat.
Proof. induction r as [|b r IH]; intros [|n c] s H Hs; simpl in *; try lia. destruct s; auto. apply IH; lia. Qed.
Definition nd (dom : list (list bool)) (s : nat) : nat := length (filter (fun r => nth s r false) dom).
Lemma col_sums_nth ns dom s : Forall (fun r => length r = ns) dom -> (s < ns)%nat -> nth s (col_sums ns dom) 0%nat = nd dom s.
Proof.
  intros H Hs. induction H as [|r dom Hr H IH].
  - unfold col_sums, nd. simpl. apply nth_repeat.
  - change (col_sums ns (r :: dom)) with (add_col r (col_sums ns dom)). rewrite add_col_nth by (rewrite col_sums_length; auto). rewrite IH. unfold nd. cbn [filter]. destruct (nth s r false); auto.
Qed.
Lemma select_sum (w : nat -> R) r : forall c, length r = length c ->
  rsum (map w (select r c)) = sumn (length c) (fun s => if nth s r false then w (nth s c 0%nat) else 0).
Proof.
  induction r as [|b r IH]; intros [|n c] H; simpl length in *; try lia; auto. injection H as H. rewrite sumn_first. cbn [select nth]. rewrite <- IH by auto. destruct b; cbn [map rsum fold_right]; fold (rsum (map w (select r c))); lra.
Qed.
Lemma select_in r : forall c n, In n (select r c) -> In n c.
Proof. induction r as [|b r IH]; intros [|m c] n H; simpl in *; try contradiction. destruct b; [destruct H; auto|]; right; eapply IH; eauto. Qed.
Lemma nd_le dom s : (nd dom s <= length dom)%nat.
Proof. apply filter_length_le. Qed.
Lemma mapM_nth_res (a : list R) l : (forall n, In n l -> (n < length a)%nat) -> mapM (fun n => nth_res IndexError a n) l = Ok (map (fun n => nth n a 0) l).
Proof.
  induction l as [|n l IH]; intros H; auto. cbn [mapM map]. unfold nth_res at 1. rewrite (nth_error_nth' a 0) by (apply H; simpl; auto). cbn [bind]. rewrite IH by (intros; apply H; simpl; auto). auto.
Qed.
Lemma col_sums_le ns dom n : Forall (fun r => length r = ns) dom -> In n (col_sums ns dom) -> (n <= length dom)%nat.
Proof.
  intros H Hn. apply (In_nth _ _ 0%nat) in Hn. destruct Hn as (s & Hs & <-). rewrite col_sums_length in Hs. rewrite col_sums_nth by auto. apply nd_le.
Qed.
Definition row_sum (w : nat -> R) (ns : nat) (dom : list (list bool)) (r : list bool) : R := sumn ns (fun s => if nth s r false then w (nd dom s) else 0).
Lemma row_sums_ok a ns dom : Forall (fun r => length r = ns) dom -> length a = S (length dom) ->
  row_sums a (col_sums ns dom) dom = Ok (map (row_sum (fun n => nth n a 0) ns dom) dom).
Proof.
  intros H Ha. unfold row_sums. apply mapM_ok. rewrite map_map. apply map_ext_in. intros r Hr. rewrite mapM_nth_res.
  - cbn [bind]. f_equal. rewrite (select_sum (fun n => nth n a 0)); [|rewrite col_sums_length; rewrite Forall_forall in H; auto]. rewrite col_sums_length. unfold row_sum. apply sumn_ext. intros s Hs. rewrite col_sums_nth; auto.
  - intros n Hn. apply select_in in Hn. apply col_sums_le in Hn; auto. lia.
Qed.
Lemma rsum_swap {A} (f : A -> nat -> R) ns l : rsum (map (fun r => sumn ns (f r)) l) = sumn ns (fun s => rsum (map (fun r => f r s) l)).
Proof. induction l as [|r l IH]; cbn [map rsum fold_right]; [symmetry; apply sumn_zero; auto|]. fold (rsum (map (fun r => sumn ns (f r)) l)). rewrite IH, <- sumn_plus. auto. Qed.
Lemma rsum_const dom s (c : R) : rsum (map (fun r => if nth s r false then c else 0) dom) = INR (nd dom s) * c.
Proof.
  unfold nd. induction dom as [|r dom IH]; cbn [map rsum fold_right filter length]; [simpl; ring|]. fold (rsum (map (fun r : list bool => if nth s r false then c else 0) dom)). rewrite IH. destruct (nth s r false); [cbn [length]; rewrite S_INR|]; ring.
Qed.

(** * weights *)
Lemma alpha_length N k : length (alpha N k) = S N.
Proof. unfold alpha. cbn [length]. rewrite map_length, seq_length. auto. Qed.
Lemma alpha_nth N k i : (1 <= i <= N)%nat -> nth i (alpha N k) 0 = fold_right Rmult 1 (map (fun j => (k - INR j) / (INR N - INR j)) (seq 1 (i - 1))) / INR i.
Proof.
  intros Hi. unfold alpha. destruct i as [|i]; [lia|]. cbn [nth]. rewrite (nth_map_default _ _ _ 0%nat) by (rewrite seq_length; lia). rewrite seq_nth by lia. auto.
Qed.
Lemma alpha_all N i : (1 <= i <= N)%nat -> nth i (alpha N (INR N)) 0 = / INR i.
Proof.
  intros Hi. rewrite alpha_nth by auto. replace (fold_right Rmult 1 _) with 1; [unfold Rdiv; ring|].
  assert (H : forall l, (forall j, In j l -> (1 <= j < N)%nat) -> fold_right Rmult 1 (map (fun j => (INR N - INR j) / (INR N - INR j)) l) = 1).
  { induction l as [|j l IH]; intros Hl; auto. cbn [map fold_right]. rewrite IH by (intros; apply Hl; simpl; auto). assert (INR j < INR N) by (apply lt_INR, Hl; simpl; auto). field. lra. }
  symmetry. apply H. intros j Hj. apply in_seq in Hj. lia.
Qed.
Lemma alpha_one N i : (1 <= i <= N)%nat -> nth i (alpha N 1) 0 = if (i =? 1)%nat then 1 else 0.
Proof.
  intros Hi. rewrite alpha_nth by auto. destruct (Nat.eqb_spec i 1) as [->|Hne]; [simpl; field|].
  replace (i - 1)%nat with (S (i - 2)) by lia. cbn [seq map fold_right]. simpl (INR 1). unfold Rdiv. rewrite Rminus_diag_eq by auto. ring.
Qed.
Lemma alpha_zero N k : nth 0 (alpha N k) 0 = 0.
Proof. reflexivity. Qed.

(** weights of [k] exclusive points: the chance that the other [k - 1] of [N - 1] points to be removed
    contain the [i - 1] other points that dominate the sample *)
Lemma comb_absorb n : forall k, (S k * comb (S n) (S k) = S n * comb n k)%nat.
Proof.
  induction n as [|n IH]; intros k.
  - destruct k; simpl; auto. destruct k; simpl; lia.
  - rewrite comb_S. destruct k as [|k].
    + rewrite comb_n0. specialize (IH 0%nat). rewrite comb_n0 in IH. lia.
    + pose proof (IH (S k)) as H1. pose proof (IH k) as H2. pose proof (comb_S n k) as H3. set (c := comb (S n) (S k)) in *. set (d := comb (S n) (S (S k))) in *.
      set (e := comb n k) in *. set (f := comb n (S k)) in *. clearbody c d e f. nia.
Qed.
Lemma alpha_general N k i : (1 <= k <= N)%nat -> (1 <= i <= N)%nat ->
  INR i * nth i (alpha N (INR k)) 0 * INR (comb (N - 1) (k - 1)) = if (i <=? k)%nat then INR (comb (N - i) (k - i)) else 0.
Proof.
  intros Hk Hi. rewrite alpha_nth by auto. set (P := fun i => fold_right Rmult 1 (map (fun j => (INR k - INR j) / (INR N - INR j)) (seq 1 (i - 1)))).
  change (INR i * (P i / INR i) * INR (comb (N - 1) (k - 1)) = (if (i <=? k)%nat then INR (comb (N - i) (k - i)) else 0)).
  assert (INR i <> 0) by (apply not_0_INR; lia). replace (INR i * (P i / INR i)) with (P i) by (field; auto).
  assert (Snoc : forall l f, fold_right Rmult 1 (map f (l ++ [nth 0 l 0%nat])) = fold_right Rmult 1 (map f (l ++ [nth 0 l 0%nat]))) by auto. clear Snoc.
  assert (App : forall (f : nat -> R) l x, fold_right Rmult 1 (map f (l ++ [x])) = fold_right Rmult 1 (map f l) * f x) by (intros f l x; induction l as [|y l IH]; cbn [app map fold_right]; [|rewrite IH]; ring).
  assert (PS : forall i, (1 <= i)%nat -> P (S i) = P i * ((INR k - INR i) / (INR N - INR i))).
  { intros j Hj. unfold P. replace (S j - 1)%nat with (S (j - 1)) by lia. rewrite seq_S. rewrite App. f_equal. replace (1 + (j - 1))%nat with j by lia. auto. }
  clear H. revert Hi. induction i as [|i IH]; intros Hi; [lia|]. destruct (Nat.eq_dec i 0) as [->|Hi0].
  - replace (1 <=? k)%nat with true by (symmetry; apply Nat.leb_le; lia). unfold P. simpl. ring.
  - rewrite PS by lia. assert (HN : INR i < INR N) by (apply lt_INR; lia).
    replace (P i * ((INR k - INR i) / (INR N - INR i)) * INR (comb (N - 1) (k - 1))) with ((P i * INR (comb (N - 1) (k - 1))) * ((INR k - INR i) / (INR N - INR i))) by ring. rewrite IH by lia.
    destruct (Nat.leb_spec i k).
    + destruct (Nat.leb_spec (S i) k).
      * replace (k - i)%nat with (S (k - S i)) by lia. replace (N - i)%nat with (S (N - S i)) by lia. pose proof (comb_absorb (N - S i) (k - S i)) as HA. apply (f_equal INR) in HA. rewrite !mult_INR in HA.
        replace (INR (S (k - S i))) with (INR k - INR i) in HA by (replace (S (k - S i)) with (k - i)%nat by lia; rewrite minus_INR; auto).
        replace (INR (S (N - S i))) with (INR N - INR i) in HA by (replace (S (N - S i)) with (N - i)%nat by lia; rewrite minus_INR by lia; auto).
        apply (Rmult_eq_reg_r (INR N - INR i)); [|lra]. field_simplify; [|lra]. lra.
      * assert (i = k) by lia. subst i. rewrite Rminus_diag_eq by auto. unfold Rdiv. ring.
    + destruct (Nat.leb_spec (S i) k); [lia|]. ring.
Qed.

(** * the estimators *)
Lemma hv_mc_ok ns dom V : (0 < ns)%nat -> Forall (fun r => length r = ns) dom ->
  hv_monte_carlo ns dom V = Ok (Fin (V * INR (length (filter (fun s => existsb (fun r => nth s r false) dom) (seq 0 ns))) / INR ns)).
Proof.
  intros Hns H. unfold hv_monte_carlo. rewrite row_sums_ok by (auto; apply alpha_length). cbn [bind]. destruct (Nat.eqb_spec ns 0); [lia|]. do 2 f_equal.
  assert (E : rsum (map (row_sum (fun n => nth n (alpha (length dom) (INR (length dom))) 0) ns dom) dom) = INR (length (filter (fun s => existsb (fun r => nth s r false) dom) (seq 0 ns)))).
  { unfold row_sum. rewrite (rsum_swap (fun r s => if nth s r false then nth (nd dom s) (alpha (length dom) (INR (length dom))) 0 else 0)). rewrite <- sumn_count. apply sumn_ext. intros s Hs. rewrite rsum_const.
    destruct (existsb (fun r => nth s r false) dom) eqn:Ee.
    - assert (1 <= nd dom s)%nat. { apply existsb_exists in Ee. destruct Ee as (r & Hr & Hb). unfold nd. destruct (filter (fun r => nth s r false) dom) eqn:Ef; [|simpl; lia]. assert (In r []) by (rewrite <- Ef; apply filter_In; auto). contradiction. }
      rewrite alpha_all by (pose proof (nd_le dom s); lia). apply Rinv_r. apply not_0_INR. lia.
    - replace (nd dom s) with 0%nat; [simpl; ring|]. unfold nd. destruct (filter (fun r => nth s r false) dom) as [|r l] eqn:Ef; auto.
      assert (Hr : In r (filter (fun r => nth s r false) dom)) by (rewrite Ef; simpl; auto). apply filter_In in Hr. destruct Hr as [Hr Hb].
      assert (existsb (fun r => nth s r false) dom = true) by (apply existsb_exists; eauto). congruence. }
  rewrite E. unfold Rdiv. ring.
Qed.
Definition only (dom : list (list bool)) (r : list bool) (s : nat) : bool := nth s r false && (nd dom s =? 1)%nat.
Lemma hvc_mc_ok ns dom V : (0 < ns)%nat -> Forall (fun r => length r = ns) dom ->
  hvc_monte_carlo ns dom V 1 = Ok (map (fun r => Fin (V * INR (length (filter (only dom r) (seq 0 ns))) / INR ns)) dom).
Proof.
  intros Hns H. unfold hvc_monte_carlo. rewrite row_sums_ok by (auto; apply alpha_length). cbn [bind]. destruct (Nat.eqb_spec ns 0); [lia|]. f_equal. rewrite map_map. apply map_ext_in. intros r Hr. f_equal.
  assert (E : row_sum (fun n => nth n (alpha (length dom) (INR 1)) 0) ns dom r = INR (length (filter (only dom r) (seq 0 ns)))).
  { rewrite <- sumn_count. apply sumn_ext. intros s Hs. unfold only. destruct (nth s r false) eqn:Eb; auto. cbn [andb].
    assert (1 <= nd dom s)%nat. { unfold nd. destruct (filter (fun r => nth s r false) dom) eqn:Ef; [|simpl; lia]. assert (In r []) by (rewrite <- Ef; apply filter_In; auto). contradiction. }
    simpl (INR 1). apply alpha_one. pose proof (nd_le dom s). lia. }
  rewrite E. unfold Rdiv. ring.
Qed.
Lemma hvc_mc_total ns dom V k : Forall (fun r => length r = ns) dom -> exists c, hvc_monte_carlo ns dom V k = Ok c /\ length c = length dom.
Proof. intros H. unfold hvc_monte_carlo. rewrite row_sums_ok by (auto; apply alpha_length). cbn [bind]. eexists. split; [reflexivity|]. rewrite !map_length. auto. Qed.

(** * deletion *)
Lemma drop_at_split {A} (a : list A) x b : drop_at (length a) (a ++ x :: b) = a ++ b.
Proof. induction a; simpl; auto. f_equal. auto. Qed.
Lemma split_at {A} (l : list A) i : (i < length l)%nat -> exists a x b, l = a ++ x :: b /\ length a = i.
Proof. intros H. destruct (nth_error l i) as [x|] eqn:E; [|apply nth_error_None in E; lia]. apply nth_error_split in E. destruct E as (a & b & -> & <-). eauto. Qed.
Lemma norm_index_ok n k i : norm_index n k = Ok i <-> index_of n k i.
Proof.
  unfold norm_index, index_of. destruct (Z.ltb_spec k 0).
  - destruct (Z.ltb_spec (Z.of_nat n + k) 0); split; try discriminate; try lia.
    + intros E. injection E as <-. lia.
    + intros H1. f_equal. lia.
  - destruct (Z.ltb_spec k (Z.of_nat n)); split; try discriminate; try lia.
    + intros E. injection E as <-. lia.
    + intros H1. f_equal. lia.
Qed.
Lemma np_delete_ok {A} (l l' : list A) k : np_delete l k = Ok l' <-> exists i, index_of (length l) k i /\ without i l l'.
Proof.
  unfold np_delete. split.
  - destruct (norm_index (length l) k) as [i|] eqn:E; [|discriminate]. intros E'. injection E' as <-. apply norm_index_ok in E. exists i. split; auto. destruct (split_at l i) as (a & x & b & -> & <-); [apply E|]. exists a, x, b. rewrite drop_at_split. auto.
  - intros (i & Hi & a & x & b & -> & -> & <-). apply norm_index_ok in Hi. rewrite Hi. cbn [bind]. rewrite drop_at_split. auto.
Qed.
Lemma index_unique n k i j : index_of n k i -> index_of n k j -> i = j.
Proof. unfold index_of. lia. Qed.
Lemma filter_split (p q r : nat -> bool) l : (forall s, In s l -> p s = q s || r s) -> (forall s, In s l -> q s && r s = false) ->
  length (filter p l) = (length (filter q l) + length (filter r l))%nat.
Proof.
  induction l as [|s l IH]; intros H1 H2; auto. cbn [filter]. specialize (IH (fun s Hs => H1 s (or_intror Hs)) (fun s Hs => H2 s (or_intror Hs))). rewrite (H1 s) by (simpl; auto). pose proof (H2 s (or_introl eq_refl)). destruct (q s), (r s); simpl in *; try discriminate; lia.
Qed.
Lemma nd_app a b s : nd (a ++ b) s = (nd a s + nd b s)%nat.
Proof. unfold nd. rewrite filter_app, app_length. auto. Qed.
Lemma nd_pos dom s : existsb (fun r => nth s r false) dom = negb (nd dom s =? 0)%nat.
Proof. unfold nd. induction dom as [|r dom IH]; auto. cbn [existsb filter]. destruct (nth s r false); auto. Qed.
Lemma hv_minus ns a r b : length (filter (fun s => existsb (fun r => nth s r false) (a ++ r :: b)) (seq 0 ns)) =
  (length (filter (fun s => existsb (fun r => nth s r false) (a ++ b)) (seq 0 ns)) + length (filter (only (a ++ r :: b) r) (seq 0 ns)))%nat.
Proof.
  apply filter_split; intros s _; rewrite ?nd_pos; unfold only; rewrite !nd_app; change (nd (r :: b) s) with (nd ([r] ++ b) s); rewrite nd_app;
  assert (E : nd [r] s = if nth s r false then 1%nat else 0%nat) by (unfold nd; simpl; destruct (nth s r false); auto); rewrite E;
  destruct (nth s r false), (nd a s) as [|[|]], (nd b s) as [|[|]]; simpl; auto; rewrite ?Nat.add_succ_r; auto.
Qed.
Definition mc_inv (ns : nat) (s : mc) : Prop := Forall (fun r => length r = ns) (m_dom s) /\ length (m_F s) = length (m_dom s) /\
  hv_monte_carlo ns (m_dom s) (m_V s) = Ok (m_hv s) /\ hvc_monte_carlo ns (m_dom s) (m_V s) 1 = Ok (m_hvc s).
Lemma mc_delete_inv ns s k s' : (0 < ns)%nat -> mc_inv ns s -> mc_delete ns 1 s k = Ok s' ->
  mc_inv ns s' /\ m_V s' = m_V s /\ exists i, index_of (length (m_F s)) k i /\ without i (m_F s) (m_F s') /\ without i (m_dom s) (m_dom s').
Proof.
  intros Hns (H1 & H2 & H3 & H4) E. unfold mc_delete in E.
  destruct (np_delete (m_F s) k) as [F|] eqn:EF; [|discriminate]. cbn [bind] in E. destruct (np_delete (m_dom s) k) as [dom|] eqn:ED; [|discriminate]. cbn [bind] in E.
  destruct (norm_index (length (m_hvc s)) k) as [i|] eqn:Ei; [|discriminate]. cbn [bind] in E. destruct (nth_res IndexError (m_hvc s) i) as [c|] eqn:Ec; [|discriminate]. cbn [bind] in E.
  destruct (hvc_monte_carlo ns dom (m_V s) 1) as [hvc|] eqn:Eh; [|discriminate]. cbn [bind] in E. injection E as <-. cbn [m_F m_dom m_V m_hv m_hvc].
  apply np_delete_ok in EF. destruct EF as (i1 & I1 & W1). apply np_delete_ok in ED. destruct ED as (i2 & I2 & W2). apply norm_index_ok in Ei.
  assert (Lh : length (m_hvc s) = length (m_dom s)). { rewrite hvc_mc_ok in H4 by auto. injection H4 as <-. rewrite map_length. auto. }
  rewrite Lh in Ei. rewrite <- H2 in I2, Ei. assert (i1 = i) by (eapply index_unique; eauto). assert (i2 = i) by (eapply index_unique; eauto). subst i1 i2.
  split; [|split; [auto|exists i; auto]].
  destruct W1 as (fa & fx & fb & EF & -> & Lf). destruct W2 as (a & x & b & Ed & -> & La).
  assert (HF : Forall (fun r => length r = ns) (a ++ b)). { rewrite Ed in H1. apply Forall_app in H1. destruct H1 as [Ha Hb]. inversion Hb. apply Forall_app; auto. }
  unfold mc_inv. cbn [m_F m_dom m_V m_hv m_hvc]. split; [auto|]. split; [|split; auto].
  - apply (f_equal (@length _)) in EF. apply (f_equal (@length _)) in Ed. rewrite app_length in EF, Ed |- *. rewrite app_length. simpl in *. lia.
  - rewrite hv_mc_ok in H3 |- * by auto. injection H3 as H3. rewrite <- H3. rewrite hvc_mc_ok in H4 by auto. injection H4 as H4. apply nth_res_ok in Ec. rewrite <- H4, Ed in Ec. rewrite map_app, nth_error_app2 in Ec by (rewrite map_length; lia). rewrite map_length, La, Nat.sub_diag in Ec. cbn [map nth_error] in Ec. injection Ec as <-.
    cbn [fsub]. do 2 f_equal. rewrite Ed, hv_minus, plus_INR. unfold Rdiv. ring.
Qed.
Lemma mc_delete_total ns s k : (0 < ns)%nat -> mc_inv ns s -> (exists i, index_of (length (m_F s)) k i) -> exists s', mc_delete ns 1 s k = Ok s'.
Proof.
  intros Hns (H1 & H2 & H3 & H4) (i & Hi). pose proof Hi as Hi'. apply norm_index_ok in Hi'. unfold mc_delete, np_delete. rewrite <- H2. rewrite Hi'. cbn [bind].
  assert (Lh : length (m_hvc s) = length (m_F s)). { rewrite hvc_mc_ok in H4 by auto. injection H4 as <-. rewrite map_length. auto. }
  rewrite Lh, Hi'. cbn [bind]. unfold nth_res. destruct (nth_error (m_hvc s) i) eqn:E; [|apply nth_error_None in E; destruct Hi; lia]. cbn [bind].
  destruct (hvc_mc_total ns (drop_at i (m_dom s)) (m_V s) 1) as (c & -> & _); [|cbn [bind]; eauto]. destruct (split_at (m_dom s) i) as (a & x & b & Ed & <-); [destruct Hi; lia|]. rewrite Ed in H1 |- *. rewrite drop_at_split. apply Forall_app in H1. destruct H1 as [Ha Hb]. inversion Hb. apply Forall_app; auto.
Qed.
Lemma mc_deletes_inv ns ks : forall s s', (0 < ns)%nat -> mc_inv ns s -> mc_deletes ns 1 s ks = Ok s' -> mc_inv ns s' /\ m_V s' = m_V s.
Proof.
  induction ks as [|k ks IH]; intros s s' Hns Hi E; cbn [mc_deletes] in E; [injection E as <-; auto|].
  destruct (mc_delete ns 1 s k) as [s1|] eqn:E1; [|discriminate]. cbn [bind] in E. apply mc_delete_inv in E1; auto. destruct E1 as (I1 & V1 & _). apply IH in E; auto. destruct E. split; congruence.
Qed.

(** * ideal point and domination matrix *)
Lemma ideal_spec m F lo : rect m F -> ideal F = Ok lo -> is_ideal m F lo.
Proof.
  destruct F as [|f t]; [discriminate|]. intros H E. cbn [ideal] in E. injection E as <-. inversion H as [|? ? Hf Ht]; subst. clear H.
  assert (G : forall t done a, Forall (fun r => length r = length f) t -> is_ideal (length f) done a ->
    is_ideal (length f) (done ++ t) (fold_left (fun a b => map (fun p => Rmin (fst p) (snd p)) (combine a b)) t a)).
  { clear. induction t as [|b t IH]; intros done a Ht Ha; cbn [fold_left]; [rewrite app_nil_r; auto|]. inversion Ht as [|? ? Hb Ht']; subst. replace (done ++ b :: t) with ((done ++ [b]) ++ t) by (rewrite <- app_assoc; auto). apply IH; auto.
    destruct Ha as [La Ha]. split; [rewrite map_length, combine_length; lia|]. intros j Hj. destruct (Ha j Hj) as [H1 (g & Hg & Eg)].
    assert (E : nth j (map (fun p => Rmin (fst p) (snd p)) (combine a b)) 0 = Rmin (nth j a 0) (nth j b 0)).
    { rewrite (nth_map_default _ _ _ (0, 0)) by (rewrite combine_length; lia). rewrite combine_nth by lia. auto. }
    rewrite E. split.
    - intros h Hh. apply in_app_or in Hh. destruct Hh as [Hh|[<-|[]]]; [apply (Rle_trans _ (nth j a 0)); [apply Rmin_l|auto]|apply Rmin_r].
    - destruct (Rle_dec (nth j a 0) (nth j b 0)).
      + exists g. split; [apply in_or_app; auto|]. rewrite Rmin_left; auto.
      + exists b. split; [apply in_or_app; simpl; auto|]. apply Rmin_right. lra. }
  apply (G t [f] f Ht). split; auto. intros j Hj. split; [intros g [<-|[]]; lra|]. exists f. simpl. auto.
Qed.
Definition is_worst (m : nat) (F : list (list R)) (hi : list R) : Prop :=
  length hi = m /\ forall j, (j < m)%nat -> (forall f, In f F -> nth j f 0 <= nth j hi 0) /\ (exists f, In f F /\ nth j hi 0 = nth j f 0).
Lemma worst_spec m F lo : rect m F -> worst F = Ok lo -> is_worst m F lo.
Proof.
  destruct F as [|f t]; [discriminate|]. intros H E. cbn [worst] in E. injection E as <-. inversion H as [|? ? Hf Ht]; subst. clear H.
  assert (G : forall t done a, Forall (fun r => length r = length f) t -> is_worst (length f) done a ->
    is_worst (length f) (done ++ t) (fold_left (fun a b => map (fun p => Rmax (fst p) (snd p)) (combine a b)) t a)).
  { clear. induction t as [|b t IH]; intros done a Ht Ha; cbn [fold_left]; [rewrite app_nil_r; auto|]. inversion Ht as [|? ? Hb Ht']; subst. replace (done ++ b :: t) with ((done ++ [b]) ++ t) by (rewrite <- app_assoc; auto). apply IH; auto.
    destruct Ha as [La Ha]. split; [rewrite map_length, combine_length; lia|]. intros j Hj. destruct (Ha j Hj) as [H1 (g & Hg & Eg)].
    assert (E : nth j (map (fun p => Rmax (fst p) (snd p)) (combine a b)) 0 = Rmax (nth j a 0) (nth j b 0)).
    { rewrite (nth_map_default _ _ _ (0, 0)) by (rewrite combine_length; lia). rewrite combine_nth by lia. auto. }
    rewrite E. split.
    - intros h Hh. apply in_app_or in Hh. destruct Hh as [Hh|[<-|[]]]; [apply (Rle_trans _ (nth j a 0)); [auto|apply Rmax_l]|apply Rmax_r].
    - destruct (Rle_dec (nth j b 0) (nth j a 0)).
      + exists g. split; [apply in_or_app; auto|]. rewrite Rmax_left; auto.
      + exists b. split; [apply in_or_app; simpl; auto|]. apply Rmax_right. lra. }
  apply (G t [f] f Ht). split; auto. intros j Hj. split; [intros g [<-|[]]; lra|]. exists f. simpl. auto.
Qed.
Lemma box_volume_eq ref : forall lo, box_volume ref lo = volume lo ref.
Proof. unfold box_volume. induction ref as [|r ref IH]; intros [|a lo]; simpl; auto. rewrite IH. auto. Qed.
Lemma rowle_iff f : forall s, length f = length s -> rowle f s = true <-> weakly f s.
Proof.
  unfold rowle, weakly. induction f as [|a f IH]; intros [|b s] H; simpl in *; try lia; [split; auto|]. injection H as H. rewrite andb_true_iff, IH by auto. unfold rleb. destruct (Rle_dec a b); split.
  - intros [_ Hf]. constructor; auto.
  - intros Hf. inversion Hf; auto.
  - intros [Hf _]. discriminate.
  - intros Hf. inversion Hf. contradiction.
Qed.
Lemma dom_rows F S : Forall (fun r => length r = length S) (dom_matrix F S).
Proof. unfold dom_matrix. apply Forall_forall. intros r Hr. apply in_map_iff in Hr. destruct Hr as (f & <- & _). apply map_length. Qed.
Lemma dom_nth F S i s : (i < length F)%nat -> (s < length S)%nat -> nth s (nth i (dom_matrix F S) []) false = rowle (nth i F []) (nth s S []).
Proof.
  intros Hi Hs. unfold dom_matrix. rewrite (nth_map_default _ _ _ []) by auto. rewrite (nth_map_default _ _ _ []) by auto. auto.
Qed.
Lemma rect_nth m A i : rect m A -> (i < length A)%nat -> length (nth i A []) = m.
Proof. intros H Hi. unfold rect in H. rewrite Forall_forall in H. apply H, nth_In; auto. Qed.
Lemma hv_counts m F S : rect m F -> rect m S ->
  counts (fun s => exists i, (i < length F)%nat /\ weakly (nth i F []) (nth s S [])) (length S)
    (length (filter (fun s => existsb (fun r => nth s r false) (dom_matrix F S)) (seq 0 (length S)))).
Proof.
  intros HF HS. apply count_filter. intros s Hs. rewrite existsb_exists. assert (LD : length (dom_matrix F S) = length F) by (unfold dom_matrix; apply map_length). split.
  - intros (r & Hr & Hb). apply (In_nth _ _ []) in Hr. destruct Hr as (i & Hi & <-). rewrite LD in Hi. rewrite dom_nth in Hb by auto. exists i. split; auto. apply rowle_iff; auto. rewrite !(rect_nth m); auto.
  - intros (i & Hi & Hw). exists (nth i (dom_matrix F S) []). split; [apply nth_In; lia|]. rewrite dom_nth by auto. apply rowle_iff; auto. rewrite !(rect_nth m); auto.
Qed.
Lemma nd_one dom s i : (i < length dom)%nat -> nth s (nth i dom []) false = true ->
  (nd dom s = 1)%nat <-> forall j, (j < length dom)%nat -> j <> i -> nth s (nth j dom []) false = false.
Proof.
  intros Hi Hb. destruct (split_at dom i Hi) as (a & x & b & -> & <-). rewrite app_nth2, Nat.sub_diag in Hb by lia. cbn [nth] in Hb.
  rewrite nd_app. change (nd (x :: b) s) with (nd ([x] ++ b) s). rewrite nd_app. assert (E : nd [x] s = 1%nat) by (unfold nd; simpl; rewrite Hb; auto). rewrite E.
  assert (Z : forall l, nd l s = 0%nat <-> forall r, In r l -> nth s r false = false).
  { intros l. unfold nd. split.
    - intros Hl r Hr. destruct (nth s r false) eqn:Er; auto. apply length_zero_iff_nil in Hl. assert (In r []) by (rewrite <- Hl; apply filter_In; auto). contradiction.
    - intros Hl. induction l as [|r l IH]; auto. cbn [filter]. rewrite (Hl r) by (simpl; auto). apply IH. intros; apply Hl; simpl; auto. }
  split.
  - intros H j Hj Hne. assert (Za : nd a s = 0%nat) by lia. assert (Zb : nd b s = 0%nat) by lia. rewrite Z in Za, Zb. rewrite app_length in Hj. simpl in Hj. destruct (Nat.lt_ge_cases j (length a)).
    + rewrite app_nth1 by auto. apply Za, nth_In; auto.
    + rewrite app_nth2 by auto. destruct (j - length a)%nat as [|d] eqn:Ed; [lia|]. cbn [nth]. apply Zb, nth_In. lia.
  - intros H. assert (Za : nd a s = 0%nat). { apply Z. intros r Hr. apply (In_nth _ _ []) in Hr. destruct Hr as (j & Hj & <-). specialize (H j). rewrite app_nth1 in H by auto. apply H; [rewrite app_length; simpl; lia|lia]. }
    assert (Zb : nd b s = 0%nat). { apply Z. intros r Hr. apply (In_nth _ _ []) in Hr. destruct Hr as (j & Hj & <-). specialize (H (length a + S j)%nat). rewrite app_nth2 in H by lia. replace (length a + S j - length a)%nat with (S j) in H by lia. apply H; [rewrite app_length; simpl; lia|lia]. }
    lia.
Qed.
Lemma hvc_counts m F S i : rect m F -> rect m S -> (i < length F)%nat ->
  counts (fun s => weakly (nth i F []) (nth s S []) /\ forall j, (j < length F)%nat -> j <> i -> ~ weakly (nth j F []) (nth s S [])) (length S)
    (length (filter (only (dom_matrix F S) (nth i (dom_matrix F S) [])) (seq 0 (length S)))).
Proof.
  intros HF HS Hi. assert (LD : length (dom_matrix F S) = length F) by (unfold dom_matrix; apply map_length). apply count_filter. intros s Hs. unfold only. rewrite andb_true_iff, Nat.eqb_eq.
  assert (W : forall j, (j < length F)%nat -> nth s (nth j (dom_matrix F S) []) false = true <-> weakly (nth j F []) (nth s S [])).
  { intros j Hj. rewrite dom_nth by auto. apply rowle_iff. rewrite !(rect_nth m); auto. }
  split.
  - intros [Hb Hn]. split; [apply W; auto|]. intros j Hj Hne. rewrite <- W by auto. rewrite (proj1 (nd_one (dom_matrix F S) s i ltac:(lia) Hb) Hn j) by lia. discriminate.
  - intros [Hb Hn]. apply W in Hb; auto. split; auto. apply nd_one with (i := i); auto; [lia|]. intros j Hj Hne. rewrite LD in Hj. specialize (Hn j Hj Hne). rewrite <- W in Hn by auto. destruct (nth s (nth j (dom_matrix F S) []) false); auto. congruence.
Qed.
Lemma mc_calc_inv ref m F S s : rect m F -> mc_calc 1 ref F S = Ok s -> (0 < length S)%nat -> mc_inv (length S) s /\ m_F s = F /\ m_dom s = dom_matrix F S /\ exists lo, is_ideal m F lo /\ m_V s = volume lo ref.
Proof.
  intros HF E HS. unfold mc_calc in E. destruct (ideal F) as [lo|] eqn:El; [|discriminate]. cbn [bind] in E.
  destruct (hv_monte_carlo _ _ _) as [hv|] eqn:E1; [|discriminate]. cbn [bind] in E. destruct (hvc_monte_carlo _ _ _ _) as [hvc|] eqn:E2; [|discriminate]. cbn [bind] in E. injection E as <-.
  split; [|split; [auto|split; [auto|]]].
  - split; [apply dom_rows|]. split; [unfold dom_matrix; cbn [m_F m_dom]; rewrite map_length; auto|]. auto.
  - exists lo. split; [apply ideal_spec; auto|]. apply box_volume_eq.
Qed.
