(** Top-level correctness of [non_domin_sort]. *)
From Coq Require Import List Arith Bool Lia Reals Lra Permutation Sorting.Sorted.
From Verif Require Import Num Exn ListAux NDSModel NDSSpec NDSProof.
Import ListNotations.
Open Scope nat_scope.

Lemma is_dominate_dominates (l r : list R) :
  length l = length r -> (is_dominate_loop l r false = true <-> dominates l r).
Proof.
  intros Hl. rewrite is_dominate_loop_spec by auto. rewrite Forall2_nth_Rle by auto.
  unfold dominates. split.
  - intros [H1 [H2|H2]]; [discriminate|]. auto.
  - intros (_ & H1 & H2). auto.
Qed.

Lemma dominates_irrefl a : ~ dominates a a.
Proof. intros (_ & _ & k & _ & Hk). lra. Qed.
Lemma dominates_trans a b c : dominates a b -> dominates b c -> dominates a c.
Proof.
  intros (L1 & A1 & k & Hk & S1) (L2 & A2 & _). split; [congruence|]. split.
  - intros i Hi. specialize (A1 i Hi). specialize (A2 i ltac:(lia)). lra.
  - exists k. split; auto. specialize (A2 k ltac:(lia)). lra.
Qed.
Lemma dominates_asym a b : dominates a b -> ~ dominates b a.
Proof. intros H1 H2. apply (dominates_irrefl a). eapply dominates_trans; eauto. Qed.

(** ** dictionary *)
Lemma veqb_refl (a : list R) : veqb a a = true.
Proof. apply veqb_spec. reflexivity. Qed.
Lemma veqb_dec (a b : list R) : {veqb a b = true /\ a = b} + {veqb a b = false /\ a <> b}.
Proof.
  destruct (veqb a b) eqn:E; [left|right]; split; auto.
  - apply veqb_spec; auto.
  - intros ->. rewrite veqb_refl in E. discriminate.
Qed.

Lemma dict_get_add (d : list (list R * list nat)) key i key' :
  dict_get (dict_add d key i) key' =
  if veqb key' key then dict_get d key ++ [i] else dict_get d key'.
Proof.
  induction d as [|[k' l] d IH]; simpl.
  - destruct (veqb key' key); auto.
  - destruct (veqb_dec key k') as [[-> ->]|[-> Hne]]; simpl.
    + destruct (veqb_dec key' k') as [[-> ->]|[-> Hne']]; auto.
    + rewrite IH. destruct (veqb_dec key' k') as [[-> ->]|[-> Hne']]; auto.
      destruct (veqb_dec k' key) as [[-> ->]|[-> Hne'']]; congruence.
Qed.

Lemma dict_add_keys (d : list (list R * list nat)) key i :
  map fst (dict_add d key i) = map fst d /\ In key (map fst d) \/
  map fst (dict_add d key i) = map fst d ++ [key] /\ ~ In key (map fst d).
Proof.
  induction d as [|[k' l] d IH]; simpl.
  - right. split; auto.
  - destruct (veqb_dec key k') as [[-> ->]|[-> Hne]]; simpl; [left; auto|].
    destruct IH as [[-> H]|[-> H]]; [left; auto|right]. split; auto. intros [?|?]; congruence || auto.
Qed.

Lemma dict_add_In (d : list (list R * list nat)) key i key' :
  In key' (map fst (dict_add d key i)) <-> In key' (map fst d) \/ key' = key.
Proof.
  destruct (dict_add_keys d key i) as [[-> H]|[-> H]].
  - split; [auto|]. intros [?| ->]; auto.
  - rewrite in_app_iff. simpl. intuition congruence.
Qed.

Lemma dict_add_NoDup (d : list (list R * list nat)) key i :
  NoDup (map fst d) -> NoDup (map fst (dict_add d key i)).
Proof.
  intros Hd. destruct (dict_add_keys d key i) as [[-> H]|[-> H]]; auto.
  apply (Permutation_NoDup (l := key :: map fst d)); [apply Permutation_cons_append|].
  constructor; auto.
Qed.

Definition occs (i : nat) (ps : list (list R)) (key : list R) : list nat :=
  map (fun t => i + t) (filter (fun t => veqb key (nth t ps [])) (seq 0 (length ps))).

Lemma occs_cons i p ps key :
  occs i (p :: ps) key = (if veqb key p then [i] else []) ++ occs (S i) ps key.
Proof.
  unfold occs. simpl length. cbn [seq filter]. simpl nth at 1.
  rewrite <- seq_shift.
  assert (E : forall q, map (fun t => i + t) (filter (fun t => veqb key (nth t (p :: ps) [])) (map S q)) =
              map (fun t => S i + t) (filter (fun t => veqb key (nth t ps [])) q)).
  { induction q as [|x q IH]; cbn [map filter]; auto.
    change (nth (S x) (p :: ps) []) with (nth x ps []).
    destruct (veqb key (nth x ps [])); cbn [map]; rewrite IH; auto.
    f_equal. lia. }
  destruct (veqb key p); cbn [map app]; rewrite E; auto. rewrite Nat.add_0_r. reflexivity.
Qed.

Lemma build_dict_get d i ps key :
  dict_get (build_dict d i ps) key = dict_get d key ++ occs i ps key.
Proof.
  revert d i; induction ps as [|p ps IH]; intros d i; [unfold occs; simpl; rewrite app_nil_r; auto|].
  simpl build_dict. rewrite IH, dict_get_add, occs_cons.
  destruct (veqb_dec key p) as [[-> ->]|[-> Hne]]; simpl; auto. rewrite <- app_assoc. reflexivity.
Qed.

Lemma build_dict_keys (d : list (list R * list nat)) i ps key :
  In key (map fst (build_dict d i ps)) <-> In key (map fst d) \/ In key ps.
Proof.
  revert d i; induction ps as [|p ps IH]; intros d i; simpl; [tauto|].
  rewrite IH, dict_add_In. intuition congruence.
Qed.
Lemma build_dict_NoDup (d : list (list R * list nat)) i ps :
  NoDup (map fst d) -> NoDup (map fst (build_dict d i ps)).
Proof.
  revert d i; induction ps as [|p ps IH]; intros d i Hd; simpl; auto.
  apply IH, dict_add_NoDup, Hd.
Qed.

Lemma objs_dict_get ps key i :
  In i (dict_get (objs_dict ps) key) <-> i < length ps /\ nth i ps [] = key.
Proof.
  unfold objs_dict. rewrite build_dict_get. simpl. unfold occs. rewrite in_map_iff. split.
  - intros (t & <- & Ht). apply filter_In in Ht as [Ht E]. apply in_seq in Ht.
    apply veqb_spec in E. simpl. split; [lia|auto].
  - intros [Hi E]. exists i. split; auto. apply filter_In. split; [apply in_seq; lia|].
    apply veqb_spec. auto.
Qed.
Lemma objs_dict_get_NoDup (ps : list (list R)) key : NoDup (dict_get (objs_dict ps) key).
Proof.
  unfold objs_dict. rewrite build_dict_get. simpl. unfold occs. simpl. rewrite map_id.
  apply NoDup_filter, seq_NoDup.
Qed.

Lemma objs_dict_head (p : list R) ps : exists is d', objs_dict (p :: ps) = (p, is) :: d'.
Proof.
  unfold objs_dict. simpl. generalize 1. generalize [0]. generalize (@nil (list R * list nat)).
  induction ps as [|a ps IH]; intros d' is q; simpl; [eauto|].
  destruct (veqb a p); apply IH.
Qed.

(** ** lexicographic sorting *)
Definition lexlt (a b : list R) : Prop := lexleb a b = true /\ a <> b.

Lemma lexleb_total (a b : list R) : lexleb a b = false -> lexleb b a = true.
Proof.
  revert b; induction a as [|x a IH]; intros [|y b]; simpl; auto; try discriminate.
  destruct (neqb_spec x y) as [E|Hne], (neqb_spec y x) as [E'|Hne']; try congruence; auto.
  - rewrite nltb_false, nltb_true. lra.
Qed.
Lemma lexleb_trans (a b c : list R) : lexleb a b = true -> lexleb b c = true -> lexleb a c = true.
Proof.
  revert b c; induction a as [|x a IH]; intros [|y b] [|z c]; simpl; auto; try discriminate.
  destruct (neqb_spec x y) as [->|H1].
  - destruct (neqb_spec y z) as [->|H2]; eauto.
  - destruct (neqb_spec y z) as [->|H2].
    + destruct (neqb_spec x z); [congruence|auto].
    + rewrite !nltb_true. intros ? ?. destruct (neqb_spec x z); [lra|]. apply nltb_true. lra.
Qed.
Lemma insert_lex_perm (x : list R) l : Permutation (x :: l) (insert_lex x l).
Proof.
  induction l as [|y l IH]; simpl; auto. destruct (lexleb x y); auto.
  rewrite perm_swap. constructor. exact IH.
Qed.
Lemma sort_lex_perm (l : list (list R)) : Permutation l (sort_lex l).
Proof. induction l as [|x l IH]; simpl; auto. rewrite <- insert_lex_perm. constructor. exact IH. Qed.
Lemma insert_lex_sorted (x : list R) l :
  StronglySorted (fun a b => lexleb a b = true) l ->
  StronglySorted (fun a b => lexleb a b = true) (insert_lex x l).
Proof.
  induction 1 as [|y l Hs IH Hy]; simpl; [repeat constructor|].
  destruct (lexleb x y) eqn:E.
  - constructor; [constructor; auto|]. constructor; auto. rewrite Forall_forall in *.
    intros z Hz. eapply lexleb_trans; eauto.
  - constructor; auto. rewrite Forall_forall in *. intros z Hz.
    apply (Permutation_in _ (Permutation_sym (insert_lex_perm x l))) in Hz as [<-|Hz]; auto.
    apply lexleb_total; auto.
Qed.
Lemma sort_lex_sorted (l : list (list R)) : StronglySorted (fun a b => lexleb a b = true) (sort_lex l).
Proof. induction l as [|x l IH]; simpl; [constructor|]. apply insert_lex_sorted; auto. Qed.

Lemma StronglySorted_nth {A} (Rel : A -> A -> Prop) l d i j :
  StronglySorted Rel l -> i < j -> j < length l -> Rel (nth i l d) (nth j l d).
Proof.
  intros Hs; revert i j; induction Hs as [|x l Hs IH Hx]; intros i j Hij Hj; simpl in *; [lia|].
  destruct j as [|j]; [lia|]. destruct i as [|i].
  - rewrite Forall_forall in Hx. apply Hx, nth_In. lia.
  - apply IH; lia.
Qed.

Lemma lexleb_diff (a b : list R) : length a = length b -> lexleb a b = true -> a <> b ->
  exists k, k < length a /\ (forall l, l < k -> nth l a 0%R = nth l b 0%R) /\ (nth k a 0 < nth k b 0)%R.
Proof.
  revert b; induction a as [|x a IH]; intros [|y b]; simpl; intros Hl Hle Hne; try discriminate; [congruence|].
  injection Hl as Hl. destruct (neqb_spec x y) as [->|Hxy].
  - destruct (IH b) as (k & Hk & Hb & Hlt); auto; [congruence|].
    exists (S k). simpl. split; [lia|]. split; auto. intros [|l] Hlk; auto. apply Hb. lia.
  - apply nltb_true in Hle. exists 0. simpl. split; [lia|]. split; auto. intros l Hlk; lia.
Qed.

(** ** The core table *)
Section Core.
Variable P : list (list R).
Variable m : nat.
Hypothesis HP : P <> [].
Hypothesis Hm : 2 <= m.
Hypothesis Hlen : forall p, In p P -> length p = m.

Lemma nds_core_spec : exists Ob F,
  nds_core P = Ok (Ob, F) /\ NoDup Ob /\ (forall p, In p Ob <-> In p P) /\ length F = length Ob /\
  (forall u b, u < length Ob -> (fr F u <= b <->
     forall w, w < length Ob -> dominates (nth w Ob []) (nth u Ob []) -> fr F w < b)).
Proof.
  unfold nds_core. set (d := objs_dict P).
  assert (Hkeys : forall key, In key (map fst d) <-> In key P).
  { intros key. unfold d, objs_dict. rewrite build_dict_keys. simpl. tauto. }
  assert (Hnd : NoDup (map fst d)) by (apply build_dict_NoDup; constructor).
  destruct d as [|[first is] d'] eqn:Ed.
  { destruct P as [|p P']; [congruence|]. exfalso. apply (Hkeys p). left; auto. }
  rewrite <- Ed in *.
  assert (Hf : length first = m).
  { apply Hlen, Hkeys. rewrite Ed. left; auto. }
  rewrite Hf. destruct (Nat.leb_spec m 1); [lia|].
  assert (Hall : forallb (fun kv : list R * list nat => m =? length (fst kv)) d = true).
  { apply forallb_forall. intros [key l] Hin. apply Nat.eqb_eq. simpl. symmetry. apply Hlen, Hkeys.
    apply in_map_iff. exists (key, l). auto. }
  rewrite Hall. set (Ob := sort_lex (map fst d)).
  assert (Hperm : Permutation (map fst d) Ob) by apply sort_lex_perm.
  assert (HnO : NoDup Ob) by (apply (Permutation_NoDup Hperm); auto).
  assert (HOP : forall p, In p Ob <-> In p P).
  { intros p. rewrite <- Hkeys. split; apply Permutation_in; [symmetry|]; auto. }
  assert (HlO : forall i, i < length Ob -> length (nth i Ob []) = m).
  { intros i Hi. apply Hlen, HOP, nth_In. auto. }
  assert (Hlex : forall i j, i < j -> j < length Ob -> exists k, k < m /\
      (forall l, l < k -> val Ob i l = val Ob j l) /\ (val Ob i k < val Ob j k)%R).
  { intros i j Hij Hj. destruct (lexleb_diff (nth i Ob []) (nth j Ob [])) as (k & Hk & Hb & Hlt).
    - rewrite !HlO by lia. auto.
    - apply (StronglySorted_nth (fun a b => lexleb a b = true)); auto. apply sort_lex_sorted.
    - intros E. apply NoDup_nth in E; auto; lia.
    - exists k. rewrite HlO in Hk by lia. auto. }
  destruct (nd_helper_a_spec Ob m HlO Hlex Hm (nds_fuel (length Ob) m) (repeat 0 (length Ob))
              (seq 0 (length Ob)) m) as (F & EF & (A1 & A2 & A3)); auto.
  - rewrite repeat_length. auto.
  - apply StronglySorted_seq.
  - intros x Hx. apply in_seq in Hx. lia.
  - intros; lia.
  - rewrite seq_length. unfold nds_fuel. lia.
  - exists Ob, F. rewrite EF. cbn [bind]. repeat split; auto; try apply HOP; auto.
    + rewrite A1, repeat_length. auto.
    + intros Hb w Hw Hdom. apply A3 in Hb as [_ Hb]; [|apply in_seq; lia].
      apply Hb; [apply in_seq; lia| |].
      * intros ->. apply (dominates_irrefl _ Hdom).
      * destruct Hdom as (_ & Hall' & _). intros k Hk. apply Hall'. rewrite HlO; auto.
    + intros Hw. apply A3; [apply in_seq; lia|]. split.
      * unfold fr. assert (E : nth u (repeat 0 (length Ob)) 0 = 0); [|lia].
        clear. generalize (length Ob). intros q; revert u; induction q; destruct u; simpl; auto.
      * intros w Hw1 Hne Hl. apply in_seq in Hw1. apply Hw; [lia|].
        split; [rewrite !HlO by lia; auto|]. rewrite HlO by lia. split; [intros k Hk; apply Hl; auto|].
        destruct (Hlex w u) as (k & Hk & _ & Hlt).
        { apply (leqc_index Ob m Hlex m u w); auto; lia. }
        { auto. }
        exists k. auto.
Qed.

(** ** front numbers *)
Lemma inner_upd (l : list nat) b (acc : list nat) :
  (forall i, In i l -> i < length acc) ->
  let acc' := fold_left (fun acc i => upd i b acc) l acc in
  length acc' = length acc /\
  (forall i d, nth i acc' d = if existsb (Nat.eqb i) l then b else nth i acc d).
Proof.
  revert acc; induction l as [|x l IH]; intros acc Hl; simpl; auto.
  destruct (IH (upd x b acc)) as (H1 & H2).
  { intros i Hi. rewrite upd_length. apply Hl; right; auto. }
  split; [rewrite H1, upd_length; auto|]. intros i d. rewrite H2.
  destruct (Nat.eqb_spec i x) as [->|Hne]; simpl.
  - rewrite nth_upd_eq by (apply Hl; left; auto). destruct (existsb _ _); auto.
  - rewrite nth_upd_neq by auto. auto.
Qed.

Lemma front_numbers_spec : exists fs,
  front_numbers P = Ok fs /\ length fs = length P /\
  (forall i b, i < length P -> (nth i fs 0 <= b <->
     forall j, j < length P -> dominates (row P j) (row P i) -> nth j fs 0 < b)).
Proof.
  destruct nds_core_spec as (Ob & F & E & HnO & HOP & HF & Hspec).
  unfold front_numbers. rewrite E. cbn [bind].
  set (d := objs_dict P).
  set (g := fun acc u => fold_left (fun acc i => upd i (fr F u) acc) (dict_get d (nth u Ob [])) acc).
  assert (Hg : forall us acc, (forall u, In u us -> u < length Ob) -> length acc = length P ->
     length (fold_left g us acc) = length P /\
     (forall i u, i < length P -> u < length Ob -> nth i P [] = nth u Ob [] ->
        nth i (fold_left g us acc) 0 = if existsb (Nat.eqb u) us then fr F u else nth i acc 0)).
  { induction us as [|w us IH]; intros acc Hus Hacc; simpl; auto.
    assert (Hw : w < length Ob) by (apply Hus; left; auto).
    destruct (inner_upd (dict_get d (nth w Ob [])) (fr F w) acc) as (H1 & H2).
    { intros i Hi. apply objs_dict_get in Hi. rewrite Hacc. tauto. }
    change (fold_left (fun acc0 i => upd i (fr F w) acc0) (dict_get d (nth w Ob [])) acc) with (g acc w) in *.
    destruct (IH (g acc w)) as (K1 & K2).
    { intros u Hu; apply Hus; right; auto. } { lia. }
    split; auto. intros i u Hi Hu Heq. rewrite (K2 i u) by auto. rewrite H2.
    destruct (Nat.eqb_spec u w) as [->|Hne]; simpl.
    - assert (Hex : existsb (Nat.eqb i) (dict_get d (nth w Ob [])) = true).
      { apply existsb_exists. exists i. split; [apply objs_dict_get; auto|apply Nat.eqb_refl]. }
      rewrite Hex. destruct (existsb _ us); auto.
    - destruct (existsb (Nat.eqb u) us); auto.
      destruct (existsb (Nat.eqb i) _) eqn:Hex; auto. exfalso.
      apply existsb_exists in Hex as (i' & Hi' & Ei). apply Nat.eqb_eq in Ei as <-.
      apply objs_dict_get in Hi' as [_ Hi']. apply Hne.
      apply (proj1 (NoDup_nth Ob []) HnO); auto; congruence. }
  destruct (Hg (seq 0 (length Ob)) (seq 0 (length P))) as (G1 & G2).
  { intros u Hu. apply in_seq in Hu. lia. } { apply seq_length. }
  set (fs := fold_left g (seq 0 (length Ob)) (seq 0 (length P))) in *.
  assert (Hidx : forall i, i < length P -> exists u, u < length Ob /\ nth i P [] = nth u Ob [] /\ nth i fs 0 = fr F u).
  { intros i Hi. destruct (In_nth Ob (nth i P []) []) as (u & Hu & Hn).
    { apply HOP, nth_In; auto. }
    exists u. split; auto. split; auto. rewrite (G2 i u) by auto.
    assert (Hex : existsb (Nat.eqb u) (seq 0 (length Ob)) = true).
    { apply existsb_exists. exists u. split; [apply in_seq; lia|apply Nat.eqb_refl]. }
    rewrite Hex. reflexivity. }
  assert (Hback : forall u, u < length Ob -> exists i, i < length P /\ nth i P [] = nth u Ob [] /\ nth i fs 0 = fr F u).
  { intros u Hu. destruct (In_nth P (nth u Ob []) []) as (i & Hi & Hn).
    { apply HOP, nth_In; auto. }
    exists i. split; auto. split; auto. destruct (Hidx i Hi) as (w & Hw & Hn' & ->).
    f_equal. apply (proj1 (NoDup_nth Ob []) HnO); auto; congruence. }
  exists fs. split; auto. split; auto. intros i b Hi.
  destruct (Hidx i Hi) as (u & Hu & Hn & ->). rewrite Hspec by auto. unfold row. rewrite Hn.
  split; intros Hall.
  - intros j Hj Hd. destruct (Hidx j Hj) as (w & Hw & Hnw & ->). rewrite Hnw in Hd. auto.
  - intros w Hw Hd. destruct (Hback w Hw) as (j & Hj & Hnj & <-). apply Hall; auto. rewrite Hnj. auto.
Qed.
End Core.

(** ** From the characterisation to the Pareto ranks *)
Definition rank_char (P : list (list R)) (f : nat -> nat) : Prop :=
  forall i b, i < length P -> (f i <= b <->
    forall j, j < length P -> dominates (row P j) (row P i) -> f j < b).

Lemma rank_dominators P f i j : rank_char P f -> i < length P -> j < length P ->
  dominates (row P j) (row P i) -> f j < f i.
Proof. intros Hr Hi Hj Hd. apply (proj1 (Hr i (f i) Hi)); auto. Qed.

Lemma bounded_search (Q : nat -> Prop) n : (forall i, {Q i} + {~ Q i}) ->
  (exists i, i < n /\ Q i) \/ (forall i, i < n -> ~ Q i).
Proof.
  intros Hd. induction n as [|n IH]; [right; intros; lia|].
  destruct IH as [(i & Hi & HQ)|IH]; [left; exists i; split; auto|].
  destruct (Hd n) as [HQ|HQ]; [left; exists n; auto|right].
  intros i Hi. destruct (Nat.eq_dec i n) as [->|]; auto. apply IH. lia.
Qed.

Lemma dominates_dec (a b : list R) : {dominates a b} + {~ dominates a b}.
Proof.
  destruct (Nat.eq_dec (length a) (length b)) as [Hl|Hl].
  - destruct (is_dominate_loop a b false) eqn:E.
    + left. apply is_dominate_dominates; auto.
    + right. intros Hd. apply is_dominate_dominates in Hd; auto. congruence.
  - right. intros [? _]. auto.
Qed.

Lemma rank_pred P f i r : rank_char P f -> i < length P -> r < f i ->
  exists j, j < length P /\ dominates (row P j) (row P i) /\ r <= f j.
Proof.
  intros Hr Hi Hlt.
  destruct (bounded_search (fun j => dominates (row P j) (row P i) /\ r <= f j) (length P)) as [Hex|Hno].
  - intros j. destruct (dominates_dec (row P j) (row P i)); [|right; tauto].
    destruct (le_dec r (f j)); [left|right]; tauto.
  - destruct Hex as (j & Hj & ? & ?). eauto.
  - exfalso. assert (f i <= r); [|lia]. apply Hr; auto. intros j Hj Hd.
    destruct (Nat.lt_ge_cases (f j) r) as [|Hge]; auto. exfalso. apply (Hno j Hj). auto.
Qed.

Lemma rank_remaining P f r : rank_char P f -> forall i, remaining P r i <-> i < length P /\ r <= f i.
Proof.
  intros Hr. induction r as [|r IH]; intros i; simpl; [split; [split; [auto|lia]|tauto]|].
  rewrite IH. split.
  - intros [[Hi Hf] (j & Hj & Hd)]. apply IH in Hj as [Hj Hfj]. split; auto.
    pose proof (rank_dominators P f i j Hr Hi Hj Hd). lia.
  - intros [Hi Hf]. split; [split; [auto|lia]|].
    destruct (rank_pred P f i r Hr Hi) as (j & Hj & Hd & Hfj); [lia|].
    exists j. rewrite IH. auto.
Qed.

Lemma rank_front P f : rank_char P f -> forall i r, pareto_front P r i <-> i < length P /\ f i = r.
Proof.
  intros Hr i r. unfold pareto_front. rewrite (rank_remaining P f r Hr i). split.
  - intros [[Hi Hf] Hno]. split; auto.
    destruct (Nat.eq_dec (f i) r) as [|Hne]; auto. exfalso. apply Hno.
    destruct (rank_pred P f i r Hr Hi) as (j & Hj & Hd & Hfj); [lia|].
    exists j. rewrite (rank_remaining P f r Hr j). auto.
  - intros [Hi <-]. split; auto. intros (j & Hj & Hd).
    apply (rank_remaining P f _ Hr) in Hj as [Hj Hfj].
    pose proof (rank_dominators P f i j Hr Hi Hj Hd). lia.
Qed.

Lemma rank_chain_le P f : rank_char P f -> forall l i, i < length P -> chain_to P i l -> length l <= f i.
Proof.
  intros Hr l; induction l as [|j l IH]; intros i Hi Hc; simpl; [lia|].
  destruct Hc as (Hj & Hd & Hc). specialize (IH j Hj Hc).
  pose proof (rank_dominators P f i j Hr Hi Hj Hd). lia.
Qed.
Lemma rank_chain_ex P f : rank_char P f -> forall r i, i < length P -> f i = r ->
  exists l, chain_to P i l /\ length l = r.
Proof.
  intros Hr r; induction r as [|r IH]; intros i Hi Hf; [exists []; simpl; auto|].
  destruct (rank_pred P f i r Hr Hi) as (j & Hj & Hd & Hfj); [lia|].
  pose proof (rank_dominators P f i j Hr Hi Hj Hd).
  destruct (IH j Hj) as (l & Hc & Hl); [lia|]. exists (j :: l). simpl. auto.
Qed.

(** ** unique / positions *)
Lemma unique_nat_In l x : In x (unique_nat l) <-> In x l.
Proof.
  unfold unique_nat. rewrite filter_In, in_seq, existsb_exists. split.
  - intros [_ (y & Hy & E)]. apply Nat.eqb_eq in E as ->. auto.
  - intros Hx. split; [|exists x; split; auto; apply Nat.eqb_refl].
    split; [lia|]. assert (x <= list_max_nat l); [|lia].
    apply (proj1 (list_max_nat_le l _) (le_n _)). auto.
Qed.

Lemma positions_In r l i : In i (positions r l) <-> i < length l /\ nth i l 0 = r.
Proof.
  unfold positions. rewrite filter_In, in_seq, Nat.eqb_eq. split.
  - intros [Hi Hn]. split; [lia|]. rewrite (nth_indep l 0 (S r)) by lia. auto.
  - intros [Hi Hn]. split; [lia|]. rewrite (nth_indep l (S r) 0) by lia. auto.
Qed.

(** ** The dictionary with only_front_indices=True *)
Definition NoGaps (ks : list nat) : Prop := exists q, ks = seq 0 q.

Lemma filter_seq_downclosed (f : nat -> bool) n :
  (forall x, f (S x) = true -> f x = true) -> exists q, filter f (seq 0 n) = seq 0 q.
Proof.
  intros Hd.
  assert (Hdown : forall x y, y <= x -> f x = true -> f y = true).
  { induction x as [|x IH]; intros y Hy Hf; [assert (y = 0) by lia; subst; auto|].
    destruct (Nat.eq_dec y (S x)) as [->|]; auto. apply IH; [lia|auto]. }
  induction n as [|n (q & IH)]; [exists 0; auto|].
  rewrite seq_S, filter_app, IH. simpl. destruct (f n) eqn:E.
  - assert (q = n).
    { assert (Hfull : filter f (seq 0 n) = seq 0 n).
      { clear IH. assert (Hall : forall x, In x (seq 0 n) -> f x = true).
        { intros x Hx. apply in_seq in Hx. apply (Hdown n); [lia|auto]. }
        revert Hall. generalize (seq 0 n). induction l as [|y l IHl]; simpl; auto. intros Hall.
        rewrite Hall by auto. f_equal. auto. }
      rewrite Hfull in IH. apply (f_equal (@length _)) in IH. rewrite !seq_length in IH. auto. }
    subst. exists (S n). rewrite seq_S. reflexivity.
  - exists q. rewrite app_nil_r. reflexivity.
Qed.

Theorem nds_idx_correct (P : list (list R)) m :
  P <> [] -> 2 <= m -> (forall p, In p P -> length p = m) ->
  exists d, non_domin_sort_idx P = Ok d /\
    (exists q, map fst d = seq 0 q) /\
    (forall r l, In (r, l) d -> StronglySorted lt l /\ l <> [] /\ forall i, In i l <-> pareto_front P r i) /\
    (forall i, i < length P -> exists r l, In (r, l) d /\ In i l) /\
    (forall r l i, In (r, l) d -> In i l -> forall c, chain_to P i c -> length c <= r) /\
    (forall r l i, In (r, l) d -> In i l -> exists c, chain_to P i c /\ length c = r).
Proof.
  intros HP Hm Hlen. destruct (front_numbers_spec P m HP Hm Hlen) as (fs & E & Hl & Hchar).
  unfold non_domin_sort_idx. rewrite E. cbn [bind]. eexists; split; [reflexivity|].
  set (f := fun i => nth i fs 0).
  assert (Hr : rank_char P f) by exact Hchar.
  assert (Hin : forall r l, In (r, l) (map (fun v => (v, positions v fs)) (unique_nat fs)) ->
     In r fs /\ l = positions r fs).
  { intros r l Hrl. apply in_map_iff in Hrl as (v & Ev & Hv). injection Ev as -> <-.
    rewrite unique_nat_In in Hv. auto. }
  assert (Hfront : forall r i, In i (positions r fs) <-> pareto_front P r i).
  { intros r i. rewrite positions_In, (rank_front P f Hr), Hl. reflexivity. }
  assert (Hfi : forall r i, In i (positions r fs) -> i < length P /\ f i = r).
  { intros r i Hi. apply positions_In in Hi as [Hi Hf]. split; [lia|auto]. }
  split; [|split; [|split; [|split]]].
  - rewrite map_map. simpl. rewrite map_id. unfold unique_nat. apply filter_seq_downclosed.
    intros x Hx. apply existsb_exists in Hx as (y & Hy & Ey). apply Nat.eqb_eq in Ey as <-.
    destruct (In_nth fs (S x) 0 Hy) as (i & Hi & Hn). rewrite Hl in Hi.
    destruct (rank_pred P f i x Hr Hi) as (j & Hj & Hd & Hfj); [unfold f; lia|].
    pose proof (rank_dominators P f i j Hr Hi Hj Hd) as Hlt. unfold f in *.
    apply existsb_exists. exists (nth j fs 0). split; [apply nth_In; lia|]. apply Nat.eqb_eq. lia.
  - intros r l Hrl. apply Hin in Hrl as [Hrf ->]. split; [|split].
    + apply StronglySorted_filter, StronglySorted_seq.
    + destruct (In_nth fs r 0 Hrf) as (i & Hi & Hn).
      intros E0. assert (Hx : In i (positions r fs)) by (apply positions_In; auto).
      rewrite E0 in Hx. destruct Hx.
    + intros i. apply Hfront.
  - intros i Hi. exists (f i), (positions (f i) fs). split.
    + apply in_map_iff. exists (f i). split; auto. apply unique_nat_In, nth_In. lia.
    + apply positions_In. split; [lia|auto].
  - intros r l i Hrl Hi c Hc. apply Hin in Hrl as [_ ->]. apply Hfi in Hi as [Hi <-].
    apply (rank_chain_le P f Hr); auto.
  - intros r l i Hrl Hi. apply Hin in Hrl as [_ ->]. apply Hfi in Hi as [Hi Hf].
    apply (rank_chain_ex P f Hr); auto.
Qed.

(** ** The dictionary with only_front_indices=False *)
Fixpoint alook (d : list (nat * list nat)) (key : nat) : list nat :=
  match d with [] => [] | (k', l) :: d' => if Nat.eqb key k' then l else alook d' key end.

Lemma assoc_app_look d key l key' :
  alook (assoc_app d key l) key' = if Nat.eqb key' key then alook d key ++ l else alook d key'.
Proof.
  induction d as [|[k' l'] d IH]; simpl.
  - destruct (Nat.eqb key' key); auto.
  - destruct (Nat.eqb_spec key k') as [->|Hne]; simpl.
    + destruct (Nat.eqb_spec key' k'); auto.
    + rewrite IH. destruct (Nat.eqb_spec key' k') as [->|Hne']; auto.
      destruct (Nat.eqb_spec k' key); congruence.
Qed.
Lemma assoc_app_keys d key l :
  map fst (assoc_app d key l) = map fst d /\ In key (map fst d) \/
  map fst (assoc_app d key l) = map fst d ++ [key] /\ ~ In key (map fst d).
Proof.
  induction d as [|[k' l'] d IH]; simpl.
  - right. split; auto.
  - destruct (Nat.eqb_spec key k') as [->|Hne]; simpl; [left; auto|].
    destruct IH as [[-> H]|[-> H]]; [left; auto|right]. split; auto. intros [?|?]; congruence || auto.
Qed.
Lemma alook_In d r l : NoDup (map fst d) -> In (r, l) d -> alook d r = l.
Proof.
  induction d as [|[k' l'] d IH]; simpl; [tauto|]. intros Hnd [E|Hin].
  - injection E as -> ->. rewrite Nat.eqb_refl. auto.
  - inversion Hnd; subst. destruct (Nat.eqb_spec r k') as [->|]; auto.
    exfalso. apply H1. apply in_map_iff. exists (k', l). auto.
Qed.

Lemma fold_assoc_app (kf : nat -> nat) (lf : nat -> list nat) us d :
  NoDup (map fst d) ->
  let d' := fold_left (fun acc u => assoc_app acc (kf u) (lf u)) us d in
  NoDup (map fst d') /\
  (forall r, In r (map fst d') <-> In r (map fst d) \/ exists u, In u us /\ kf u = r) /\
  (forall r, alook d' r = alook d r ++ concat (map lf (filter (fun u => Nat.eqb r (kf u)) us))).
Proof.
  revert d; induction us as [|u us IH]; intros d Hd; simpl.
  - repeat split; auto; try (intros [?|(u & [] & _)]; auto). intros r. rewrite app_nil_r. auto.
  - assert (Hd1 : NoDup (map fst (assoc_app d (kf u) (lf u)))).
    { destruct (assoc_app_keys d (kf u) (lf u)) as [[-> H]|[-> H]]; auto.
      apply (Permutation_NoDup (l := kf u :: map fst d)); [apply Permutation_cons_append|].
      constructor; auto. }
    destruct (IH _ Hd1) as (H1 & H2 & H3). split; auto. split.
    + intros r. rewrite H2.
      assert (Hk : In r (map fst (assoc_app d (kf u) (lf u))) <-> In r (map fst d) \/ kf u = r).
      { destruct (assoc_app_keys d (kf u) (lf u)) as [[-> H]|[-> H]].
        - split; auto. intros [?|<-]; auto.
        - rewrite in_app_iff. simpl. tauto. }
      rewrite Hk. split.
      * intros [[?|?]|(w & ? & ?)]; eauto.
      * intros [?|(w & [->|?] & ?)]; eauto.
    + intros r. rewrite H3, assoc_app_look. destruct (Nat.eqb_spec r (kf u)) as [->|Hne]; simpl; auto.
      rewrite <- app_assoc. reflexivity.
Qed.

Lemma NoDup_concat_disjoint {A} (g : nat -> list A) us :
  NoDup us -> (forall u, In u us -> NoDup (g u)) ->
  (forall u w x, In u us -> In w us -> In x (g u) -> In x (g w) -> u = w) ->
  NoDup (concat (map g us)).
Proof.
  induction 1 as [|u us Hu Hnd IH]; simpl; intros H1 H2; [constructor|].
  assert (HI : NoDup (concat (map g us))) by (apply IH; eauto).
  assert (Hdis : forall x, In x (g u) -> ~ In x (concat (map g us))).
  { intros x Hx Hc. apply in_concat in Hc as (l & Hl & Hxl). apply in_map_iff in Hl as (w & <- & Hw).
    assert (u = w) by (apply (H2 u w x); auto). subst. auto. }
  clear -H1 HI Hdis. specialize (H1 u (or_introl eq_refl)).
  induction H1 as [|x l Hx Hl IHl]; simpl; auto.
  constructor.
  - rewrite in_app_iff. intros [?|?]; auto. apply (Hdis x); simpl; auto.
  - apply IHl. intros y Hy. apply Hdis. right; auto.
Qed.

Theorem nds_dec_correct (P : list (list R)) m :
  P <> [] -> 2 <= m -> (forall p, In p P -> length p = m) ->
  exists d, non_domin_sort_dec P = Ok d /\
    NoDup (map fst d) /\
    (forall r, In r (map fst d) <-> exists i, pareto_front P r i) /\
    (forall r l, In (r, l) d -> NoDup l /\ forall i, In i l <-> pareto_front P r i).
Proof.
  intros HP Hm Hlen. destruct (nds_core_spec P m HP Hm Hlen) as (Ob & F & E & HnO & HOP & HF & Hspec).
  unfold non_domin_sort_dec. rewrite E. cbn [bind]. eexists; split; [reflexivity|].
  set (us := seq 0 (length Ob)).
  set (lf := fun u => dict_get (objs_dict P) (nth u Ob [])).
  destruct (fold_assoc_app (fr F) lf us []) as (H1 & H2 & H3); [constructor|].
  set (d := fold_left _ us []) in *.
  (* the rank function on input indices *)
  assert (Hidx : forall i, i < length P -> exists u, u < length Ob /\ nth i P [] = nth u Ob []).
  { intros i Hi. destruct (In_nth Ob (nth i P []) []) as (u & Hu & Hn); [apply HOP, nth_In; auto|]. eauto. }
  set (pos := fun p => fold_left (fun acc u => if veqb p (nth u Ob []) then u else acc) us 0).
  assert (Hpos : forall u, u < length Ob -> pos (nth u Ob []) = u).
  { intros u Hu. unfold pos.
    assert (Hgen : forall l acc, (forall w, In w l -> w < length Ob) ->
       fold_left (fun acc w => if veqb (nth u Ob []) (nth w Ob []) then w else acc) l acc =
       if existsb (Nat.eqb u) l then u else acc).
    { induction l as [|w l IHl]; intros acc Hw; simpl; auto. rewrite IHl by (intros; apply Hw; right; auto).
      destruct (veqb_dec (nth u Ob []) (nth w Ob [])) as [[-> Hq]|[-> Hq]].
      - apply (proj1 (NoDup_nth Ob []) HnO) in Hq; auto; [|apply Hw; left; auto]. subst.
        rewrite Nat.eqb_refl. simpl. destruct (existsb _ l); auto.
      - destruct (Nat.eqb_spec u w) as [->|]; [congruence|]. auto. }
    rewrite Hgen.
    - assert (Hx : existsb (Nat.eqb u) us = true).
      { apply existsb_exists. exists u. split; [apply in_seq; lia|apply Nat.eqb_refl]. }
      rewrite Hx. auto.
    - intros w Hw. apply in_seq in Hw. lia. }
  set (f := fun i => fr F (pos (nth i P []))).
  assert (Hf : forall i u, u < length Ob -> nth i P [] = nth u Ob [] -> f i = fr F u).
  { intros i u Hu Heq. unfold f. rewrite Heq, Hpos; auto. }
  assert (Hr : rank_char P f).
  { intros i b Hi. destruct (Hidx i Hi) as (u & Hu & Hn). rewrite (Hf i u) by auto.
    rewrite Hspec by auto. unfold row. rewrite Hn. split; intros Hall.
    - intros j Hj Hd. destruct (Hidx j Hj) as (w & Hw & Hnw). rewrite (Hf j w) by auto.
      rewrite Hnw in Hd. auto.
    - intros w Hw Hd. destruct (In_nth P (nth w Ob []) []) as (j & Hj & Hnj); [apply HOP, nth_In; auto|].
      rewrite <- (Hf j w) by auto. apply Hall; auto. rewrite Hnj. auto. }
  assert (Hlook : forall r i, In i (alook d r) <-> pareto_front P r i).
  { intros r i. rewrite H3. simpl. rewrite (rank_front P f Hr). rewrite in_concat. split.
    - intros (l & Hl & Hi). apply in_map_iff in Hl as (u & <- & Hu).
      apply filter_In in Hu as [Hu Eu]. apply Nat.eqb_eq in Eu. apply in_seq in Hu.
      apply objs_dict_get in Hi as [Hi Hn]. split; auto. rewrite (Hf i u) by (auto; lia). auto.
    - intros [Hi <-]. destruct (Hidx i Hi) as (u & Hu & Hn). exists (lf u). split.
      + apply in_map_iff. exists u. split; auto. apply filter_In. split; [apply in_seq; lia|].
        apply Nat.eqb_eq. apply Hf; auto.
      + apply objs_dict_get. auto. }
  split; auto. split.
  - intros r. rewrite H2. simpl. split.
    + intros [[]|(u & Hu & <-)]. apply in_seq in Hu.
      destruct (In_nth P (nth u Ob []) []) as (i & Hi & Hn); [apply HOP, nth_In; lia|].
      exists i. apply (rank_front P f Hr). split; auto. apply Hf; auto. lia.
    + intros (i & Hi). apply (rank_front P f Hr) in Hi as [Hi <-]. right.
      destruct (Hidx i Hi) as (u & Hu & Hn). exists u. split; [apply in_seq; lia|]. symmetry. apply Hf; auto.
  - intros r l Hrl. apply alook_In in Hrl as <-; auto. split; [|apply Hlook].
    rewrite H3. simpl. apply NoDup_concat_disjoint.
    + apply NoDup_filter, seq_NoDup.
    + intros u _. apply objs_dict_get_NoDup.
    + intros u w x Hu Hw Hx Hx'. apply filter_In in Hu as [Hu _]. apply filter_In in Hw as [Hw _].
      apply in_seq in Hu. apply in_seq in Hw.
      apply objs_dict_get in Hx as [_ Hx]. apply objs_dict_get in Hx' as [_ Hx'].
      apply (proj1 (NoDup_nth Ob []) HnO); try lia. congruence.
Qed.
