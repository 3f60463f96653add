(** Property theorems: dominance and non-dominated sorting (C12-C16). *)
From Coq Require Import List Arith Lia Reals Lra Sorting.Sorted.
From Verif Require Import Num Exn ListAux NDSModel NDSSpec NDSProof NDSTop UtilsModel UtilsProof.
Import ListNotations.
Open Scope nat_scope.

(** C14 *)
Theorem C14_is_dominate_iff : forall (a b : list R) (r : bool),
  is_dominate a b = Ok r -> (r = true <-> dominates a b).
Proof.
  intros a b r. unfold is_dominate. destruct (Nat.eqb_spec (length a) (length b)) as [E|]; [|discriminate].
  intros Hr; injection Hr as <-. exact (is_dominate_dominates a b E).
Qed.
Print Assumptions C14_is_dominate_iff.

Theorem C14_is_dominate_total : forall (a b : list R),
  (length a = length b -> exists r, is_dominate a b = Ok r) /\
  (length a <> length b -> is_dominate a b = Exn AssertionError).
Proof.
  intros a b. unfold is_dominate. destruct (Nat.eqb_spec (length a) (length b)); split; intros; eauto; congruence.
Qed.
Print Assumptions C14_is_dominate_total.

Theorem C14_is_dominate_strict_order :
  (forall a : list R, is_dominate a a = Ok false) /\
  (forall a b : list R, is_dominate a b = Ok true -> is_dominate b a = Ok false) /\
  (forall a b c : list R, is_dominate a b = Ok true -> is_dominate b c = Ok true -> is_dominate a c = Ok true).
Proof.
  assert (Hd : forall a b : list R, is_dominate a b = Ok true <-> dominates a b).
  { intros a b. split; intros Hab.
    - exact (proj1 (C14_is_dominate_iff a b true Hab) eq_refl).
    - destruct (proj1 (C14_is_dominate_total a b) (proj1 Hab)) as [r Hr].
      rewrite Hr. f_equal. apply (C14_is_dominate_iff a b r Hr). exact Hab. }
  repeat split.
  - intros a. destruct (proj1 (C14_is_dominate_total a a) eq_refl) as [[|] Hr]; auto.
    apply Hd in Hr. destruct (dominates_irrefl a Hr).
  - intros a b Hab. apply Hd in Hab.
    destruct (proj1 (C14_is_dominate_total b a) (eq_sym (proj1 Hab))) as [[|] Hr]; auto.
    apply Hd in Hr. destruct (dominates_asym a b Hab Hr).
  - intros a b c Hab Hbc. apply Hd. apply Hd in Hab, Hbc. exact (dominates_trans a b c Hab Hbc).
Qed.
Print Assumptions C14_is_dominate_strict_order.

Example C14_example : is_dominate [1;2;2]%R [1;3;2]%R = Ok true.
Proof.
  assert (H : dominates [1;2;2]%R [1;3;2]%R).
  { split; auto. split.
    - intros [|[|[|k]]]; simpl; intros; try lra; lia.
    - exists 1. simpl. split; [lia|lra]. }
  destruct (proj1 (C14_is_dominate_total [1;2;2]%R [1;3;2]%R) eq_refl) as [r Hr].
  rewrite Hr. f_equal. exact (proj2 (C14_is_dominate_iff _ _ _ Hr) H).
Qed.

(** C12: the fronts are exactly the peeled Pareto fronts, and the front number is the
    length of the longest dominance chain ending in the point. *)
Theorem C12_fronts_are_pareto_ranks : forall (P : list (list R)) m,
  P <> [] -> 2 <= m -> (forall p, In p P -> length p = m) ->
  exists d, non_domin_sort_idx P = Ok d /\
    (forall r l, In (r, l) d -> forall i, In i l <-> pareto_front P r i) /\
    (forall r i, pareto_front P r i -> exists l, In (r, l) d /\ In i l) /\
    (forall r l i, In (r, l) d -> In i l ->
       (exists c, chain_to P i c /\ length c = r) /\
       (forall c, chain_to P i c -> length c <= r)).
Proof.
  intros P m HP Hm Hlen.
  destruct (nds_idx_correct P m HP Hm Hlen) as (d & E & H1 & H2 & H3 & H4 & H5).
  exists d. split; [exact E|]. split; [intros r l Hrl; apply (H2 r l Hrl)|]. split.
  - intros r i Hi. assert (Hi' : i < length P).
    { destruct Hi as [Hi _]. clear -Hi. revert i Hi. induction r; simpl; [auto|]. intros i [Hi _]; auto. }
    destruct (H3 i Hi') as (r' & l & Hrl & Hil). 
    assert (Hr : r' = r).
    { destruct (H2 r' l Hrl) as (_ & _ & H2'). apply H2' in Hil.
      destruct (front_numbers_spec P m HP Hm Hlen) as (fs & _ & _ & Hchar).
      apply (rank_front P (fun i => nth i fs 0) Hchar) in Hil as [_ <-].
      apply (rank_front P (fun i => nth i fs 0) Hchar) in Hi as [_ <-]. reflexivity. }
    subst r'. eauto.
  - intros r l i Hrl Hil. split; [exact (H5 r l i Hrl Hil)|exact (H4 r l i Hrl Hil)].
Qed.
Print Assumptions C12_fronts_are_pareto_ranks.

(** C12 for [only_front_indices=False]. *)
Theorem C12_decisions_per_front : forall (P : list (list R)) m,
  P <> [] -> 2 <= m -> (forall p, In p P -> length p = m) ->
  exists d, non_domin_sort_dec P = Ok d /\
    NoDup (map fst d) /\
    (forall r, In r (map fst d) <-> exists i, pareto_front P r i) /\
    (forall r l, In (r, l) d -> NoDup l /\ forall i, In i l <-> pareto_front P r i).
Proof. exact nds_dec_correct. Qed.
Print Assumptions C12_decisions_per_front.

(** C12, third clause: no point dominates another one of its front. *)
Theorem C12_front_mutually_nondominated : forall (P : list (list R)) m d r l i j,
  P <> [] -> 2 <= m -> (forall p, In p P -> length p = m) ->
  non_domin_sort_idx P = Ok d -> In (r, l) d -> In i l -> In j l ->
  ~ dominates (row P i) (row P j).
Proof.
  intros P m d r l i j HP Hm Hlen E Hrl Hi Hj Hd.
  destruct (nds_idx_correct P m HP Hm Hlen) as (d' & E' & _ & H2 & _).
  rewrite E in E'. injection E' as <-. destruct (H2 r l Hrl) as (_ & _ & H2').
  apply H2' in Hi, Hj. destruct Hj as [_ Hj]. apply Hj. exists i. split; [apply Hi|exact Hd].
Qed.
Print Assumptions C12_front_mutually_nondominated.

Example C12_example : let P := [[1;2;3];[2;1;3];[2;2;3];[2;2;3];[0;9;9]]%R in
  P <> [] /\ 2 <= 3 /\ (forall p, In p P -> length p = 3).
Proof.
  simpl. split; [discriminate|]. split; [lia|].
  intros p Hp. repeat destruct Hp as [<-|Hp]; auto. destruct Hp.
Qed.

(** C13: exact cover, contiguous numbering, duplicates together, termination. *)
Theorem C13_partition : forall (P : list (list R)) m,
  P <> [] -> 2 <= m -> (forall p, In p P -> length p = m) ->
  exists d, non_domin_sort_idx P = Ok d /\
    (exists q, map fst d = seq 0 q) /\
    (forall r l, In (r, l) d -> l <> [] /\ StronglySorted lt l /\ forall i, In i l -> i < length P) /\
    (forall i, i < length P -> exists r l, In (r, l) d /\ In i l /\
        (forall r' l', In (r', l') d -> In i l' -> r' = r /\ l' = l)) /\
    (forall r l i j, In (r, l) d -> In i l -> j < length P -> row P j = row P i -> In j l).
Proof.
  intros P m HP Hm Hlen.
  destruct (nds_idx_correct P m HP Hm Hlen) as (d & E & H1 & H2 & H3 & H4 & H5).
  destruct (front_numbers_spec P m HP Hm Hlen) as (fs & _ & _ & Hchar).
  assert (Hf := rank_front P (fun i => nth i fs 0) Hchar).
  assert (Hnd : NoDup (map fst d)) by (destruct H1 as [q ->]; apply seq_NoDup).
  exists d. split; [exact E|]. split; [exact H1|]. split; [|split].
  - intros r l Hrl. destruct (H2 r l Hrl) as (A & B & C). split; [exact B|]. split; [exact A|].
    intros i Hi. apply C in Hi. apply Hf in Hi. tauto.
  - intros i Hi. destruct (H3 i Hi) as (r & l & Hrl & Hil). exists r, l. split; [exact Hrl|]. split; [exact Hil|].
    intros r' l' Hrl' Hil'.
    assert (Hr : r' = r).
    { apply (H2 r l Hrl), Hf in Hil. apply (H2 r' l' Hrl'), Hf in Hil'. destruct Hil as [_ <-], Hil' as [_ <-]. reflexivity. }
    subst r'. split; [reflexivity|].
    rewrite <- (alook_In d r l Hnd Hrl). symmetry. exact (alook_In d r l' Hnd Hrl').
  - intros r l i j Hrl Hil Hj Heq. apply (H2 r l Hrl). apply (H2 r l Hrl), Hf in Hil. destruct Hil as [Hi Hr].
    apply Hf. split; [exact Hj|]. rewrite <- Hr. apply Nat.le_antisymm.
    + apply Hchar; [exact Hj|]. rewrite Heq. apply (proj1 (Hchar i (nth i fs 0) Hi)). apply le_n.
    + apply Hchar; [exact Hi|]. rewrite <- Heq. apply (proj1 (Hchar j (nth j fs 0) Hj)). apply le_n.
Qed.
Print Assumptions C13_partition.

(** C13, termination for every input whatsoever: the recursion never exhausts its
    fuel; malformed inputs raise the assertions of the code. *)
Theorem C13_terminates : forall (P : list (list R)),
  (exists d, non_domin_sort_idx P = Ok d) \/ non_domin_sort_idx P = Exn AssertionError.
Proof.
  intros P. destruct P as [|p P']; [right; reflexivity|].
  set (P := p :: P').
  destruct (Nat.lt_ge_cases (length p) 2) as [Hlt|Hge].
  - right. unfold non_domin_sort_idx, front_numbers, nds_core.
    pose proof (objs_dict_head p P') as Hh. fold P in Hh.
    destruct Hh as (is & d' & ->). destruct (Nat.leb_spec (length p) 1); [reflexivity|lia].
  - destruct (forallb (fun kv : list R * list nat => Nat.eqb (length p) (length (fst kv))) (objs_dict P)) eqn:E.
    + left. destruct (nds_idx_correct P (length p)) as (d & Ed & _); [discriminate|exact Hge| |eauto].
      intros a Ha. rewrite forallb_forall in E.
      assert (Hin : In a (map fst (objs_dict P))) by (apply build_dict_keys; auto).
      apply in_map_iff in Hin as ([a' l] & <- & Hin). symmetry. apply Nat.eqb_eq. exact (E _ Hin).
    + right. unfold non_domin_sort_idx, front_numbers, nds_core.
    pose proof (objs_dict_head p P') as Hh. fold P in Hh.
      destruct Hh as (is & d' & Eo). rewrite Eo in *. destruct (Nat.leb_spec (length p) 1); [lia|].
      rewrite E. reflexivity.
Qed.
Print Assumptions C13_terminates.

Example C13_example : let P := [[1;2];[1;2];[3;0];[4;4]]%R in
  P <> [] /\ 2 <= 2 /\ (forall p, In p P -> length p = 2).
Proof.
  simpl. split; [discriminate|]. split; [lia|].
  intros p Hp. repeat destruct Hp as [<-|Hp]; auto. destruct Hp.
Qed.

(** C15 *)
Theorem C15_get_non_dominated_iff : forall isclose (M : list (list R)) m,
  (forall p, In p M -> length p = m) ->
  match get_non_dominated_idx isclose true M with
  | Ok ix => ix <> [] /\ StronglySorted lt ix /\
      forall i, In i ix <-> i < length M /\
        (forall j, j < length M -> j <> i -> ~ weakly_dominates (row M j) (row M i))
  | Exn e => e = IndexError /\
      ~ exists i, i < length M /\
        (forall j, j < length M -> j <> i -> ~ weakly_dominates (row M j) (row M i))
  end.
Proof. exact get_non_dominated_correct. Qed.
Print Assumptions C15_get_non_dominated_iff.

Example C15_example : forall p, In p [[1;2];[2;1];[3;3]]%R -> length p = 2.
Proof. intros p Hp. repeat destruct Hp as [<-|Hp]; auto. destruct Hp. Qed.

(** C16: with duplicated rows a non-dominated objective vector can lose every
    representative; with all rows equal the function raises [IndexError]. *)
Theorem C16_complete_refuted : exists (M : list (list R)) ix,
  (forall p, In p M -> length p = 2) /\
  get_non_dominated_idx (fun _ _ => false) true M = Ok ix /\
  ~ (forall i, i < length M -> exists j, In j ix /\ weakly_dominates (row M j) (row M i)).
Proof.
  set (M := [[1;1];[1;1];[0;2]]%R).
  assert (Hlen : forall p, In p M -> length p = 2).
  { intros p Hp. repeat destruct Hp as [<-|Hp]; auto. destruct Hp. }
  pose proof (get_non_dominated_correct (fun _ _ => false) M 2 Hlen) as Hc.
  assert (H2 : forall j, j < 3 -> j <> 2 -> ~ weakly_dominates (row M j) (row M 2)).
  { intros j Hj Hne [_ Hw]. specialize (Hw 0). unfold row, M in Hw.
    destruct j as [|[|[|j]]]; simpl in Hw; try lia; specialize (Hw ltac:(lia)); lra. }
  destruct (get_non_dominated_idx (fun _ _ => false) true M) as [ix|e] eqn:Eix.
  - exists M, ix. split; [exact Hlen|]. split; [exact Eix|]. destruct Hc as (_ & _ & Hin).
    intros Hall. destruct (Hall 0) as (j & Hj & Hw); [simpl; lia|].
    apply Hin in Hj as [Hj Hno]. simpl in Hj.
    destruct j as [|[|[|j]]]; try lia.
    + apply (Hno 1); [simpl; lia|lia|]. split; auto. intros k Hk. unfold row, M. simpl. lra.
    + apply (Hno 0); [simpl; lia|lia|]. split; auto. intros k Hk. unfold row, M. simpl. lra.
    + destruct Hw as [_ Hw]. specialize (Hw 1). unfold row, M in Hw. simpl in Hw.
      specialize (Hw ltac:(lia)). lra.
  - destruct Hc as [_ Hc]. exfalso. apply Hc. exists 2. split; [simpl; lia|exact H2].
Qed.
Print Assumptions C16_complete_refuted.

Theorem C16_all_equal_refuted : exists (M : list (list R)),
  M <> [] /\ (forall p, In p M -> length p = 2) /\
  get_non_dominated_idx (fun _ _ => false) true M = Exn IndexError.
Proof.
  set (M := [[1;1];[1;1]]%R). exists M.
  assert (Hlen : forall p, In p M -> length p = 2).
  { intros p Hp. repeat destruct Hp as [<-|Hp]; auto. destruct Hp. }
  split; [discriminate|]. split; [exact Hlen|].
  pose proof (get_non_dominated_correct (fun _ _ => false) M 2 Hlen) as Hc.
  destruct (get_non_dominated_idx (fun _ _ => false) true M) as [ix|e] eqn:Eix.
  - destruct Hc as (Hne & _ & Hin). destruct ix as [|i ix]; [congruence|]. exfalso.
    destruct (proj1 (Hin i) (or_introl eq_refl)) as [Hi Hno]. simpl in Hi.
    apply (Hno (1 - i)); [change (length M) with 2; lia|lia|]. unfold M, row.
    destruct i as [|[|i]]; try lia; split; auto; intros k Hk; simpl; lra.
  - destruct Hc as [-> _]. reflexivity.
Qed.
Print Assumptions C16_all_equal_refuted.

(** C16, the part that holds: when the rows are pairwise different, every row is
    weakly dominated by a returned row. *)
Theorem C16_complete_partial : forall isclose (M : list (list R)) m,
  M <> [] -> NoDup M -> (forall p, In p M -> length p = m) ->
  exists ix, get_non_dominated_idx isclose true M = Ok ix /\
  forall i, i < length M -> exists j, In j ix /\ weakly_dominates (row M j) (row M i).
Proof. exact get_non_dominated_complete. Qed.
Print Assumptions C16_complete_partial.

Example C16_example : let M := [[1;2];[2;1];[3;3]]%R in
  M <> [] /\ NoDup M /\ (forall p, In p M -> length p = 2).
Proof.
  simpl. split; [discriminate|]. split.
  - repeat constructor; simpl; intuition; match goal with H : _ = _ |- _ => injection H; lra end.
  - intros p Hp. repeat destruct Hp as [<-|Hp]; auto. destruct Hp.
Qed.
