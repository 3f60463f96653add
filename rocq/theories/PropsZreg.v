(** Property theorems: the regions in the reported front of ZDT3. *)
From Coq Require Import Reals Lra Lia.
From Coq Require Import List Arith Bool.
From Verif Require Import BenchModel BenchSpec BenchBase BenchZDT ZregModel ZregProof ZregMin PropsFronts.
Import ListNotations.
Open Scope R_scope.

(** the objective vector of the optimal points with first objective [t] *)
Definition vec3 (t : R) : list R := [t; 1 - sqrt t - t * sin (10 * PI * t)].

Lemma in_block lo hi i N : In (lo, hi) zdt3_regions -> (i < Nat.max 1 (N / 5))%nat -> In (vec3 (lo + Node (Nat.max 1 (N / 5)) i * (hi - lo))) (zdt3_front N).
Proof. intros Hr Hi. apply C166_zdt3. exists lo, hi, i. split; [exact Hr|]. split; [exact Hi|]. reflexivity. Qed.
Lemma in_lo lo hi N : In (lo, hi) zdt3_regions -> In (vec3 lo) (zdt3_front N).
Proof.
  intros Hr. pose proof (in_block lo hi 0 N Hr ltac:(lia)) as H. replace (lo + Node (Nat.max 1 (N / 5)) 0 * (hi - lo)) with lo in H; [auto|].
  unfold Node. destruct (_ =? _)%nat; simpl; unfold Rdiv; ring.
Qed.
Lemma in_hi lo hi N : (10 <= N)%nat -> In (lo, hi) zdt3_regions -> In (vec3 hi) (zdt3_front N).
Proof.
  intros HN Hr. assert (H2 : (2 <= N / 5)%nat) by (apply (Nat.div_le_lower_bound N 5 2); lia).
  pose proof (in_block lo hi (Nat.max 1 (N / 5) - 1) N Hr ltac:(lia)) as H.
  replace (lo + Node (Nat.max 1 (N / 5)) (Nat.max 1 (N / 5) - 1) * (hi - lo)) with hi in H; [auto|].
  unfold Node. destruct (Nat.eqb_spec (Nat.max 1 (N / 5)) 1) as [E|_]; [lia|].
  assert (INR (Nat.max 1 (N / 5) - 1) <> 0) by (apply not_0_INR; lia). field. auto.
Qed.
Lemma vec3_dominates a b : a < b -> psi a < psi b -> dominates (vec3 a) (vec3 b).
Proof.
  intros H1 H2. split.
  - repeat constructor; [lra|]. unfold psi in H2. lra.
  - intros E. injection E as E _. lra.
Qed.

(** * C181 *)
(** the blocks of [flatten=False] *)
Theorem C181_blocks : forall N, length (zdt3_blocks N) = 5%nat /\ (forall b, In b (zdt3_blocks N) -> length b = Nat.max 1 (N / 5)) /\
  concat (zdt3_blocks N) = zdt3_front N /\ length (zdt3_front N) = (5 * Nat.max 1 (N / 5))%nat.
Proof.
  intros N. split; [reflexivity|]. split.
  - intros b Hb. apply in_map_iff in Hb. destruct Hb as (lh & <- & _). rewrite map_length. unfold linspace01. rewrite map_length, seq_length. reflexivity.
  - split; [reflexivity|]. unfold zdt3_front, zdt3_regions. cbn [map concat]. rewrite !app_length, !map_length. unfold linspace01. rewrite !map_length, !seq_length. cbn [length]. lia.
Qed.
Print Assumptions C181_blocks.

(** the ends of the second to fourth region dominate the beginnings of the third to fifth *)
Definition bad_pairs : list (R * R) := [(0.2577623634, 0.4093136748); (0.4538821041, 0.6183967944); (0.6525117038, 0.8233317983)].
Theorem C181_front_refuted : forall N, (10 <= N)%nat -> forall hi lo, In (hi, lo) bad_pairs ->
  In (vec3 hi) (zdt3_front N) /\ In (vec3 lo) (zdt3_front N) /\ dominates (vec3 hi) (vec3 lo).
Proof.
  intros N HN hi lo [E|[E|[E|[]]]]; injection E as <- <-.
  - split; [apply (in_hi 0.182228780); [auto|right; left; reflexivity]|]. split; [apply (in_lo _ 0.4538821041); right; right; left; reflexivity|]. apply vec3_dominates; [lra|apply pair2].
  - split; [apply (in_hi 0.4093136748); [auto|right; right; left; reflexivity]|]. split; [apply (in_lo _ 0.6525117038); right; right; right; left; reflexivity|]. apply vec3_dominates; [lra|apply pair3].
  - split; [apply (in_hi 0.6183967944); [auto|right; right; right; left; reflexivity]|]. split; [apply (in_lo _ 0.8518328654); right; right; right; right; left; reflexivity|]. apply vec3_dominates; [lra|apply pair4].
Qed.
Print Assumptions C181_front_refuted.

(** whatever the number of points: three reported vectors are not optimal for the problem *)
Theorem C181_optimal_refuted : forall n N hi lo, (2 <= n)%nat -> In (hi, lo) bad_pairs ->
  In (vec3 lo) (zdt3_front N) /\ ~ optimal (zdt_box n) zdt3 (vec3 lo).
Proof.
  intros n N hi lo Hn Hp. split.
  - destruct Hp as [E|[E|[E|[]]]]; injection E as <- <-; [apply (in_lo _ 0.4538821041); right; right; left; reflexivity|apply (in_lo _ 0.6525117038); right; right; right; left; reflexivity|
      apply (in_lo _ 0.8518328654); right; right; right; right; left; reflexivity].
  - intros Ho. apply zdt3_optimal in Ho; auto. destruct Ho as (t & [_ Hd] & E). injection E as <- _.
    assert (He : eps < 0.01) by (unfold eps; lra).
    assert (HB : 0 <= hi < lo /\ 0.01 < hi /\ psi hi < psi lo).
    { destruct Hp as [E|[E|[E|[]]]]; injection E as <- <-; (split; [lra|]; split; [lra|]); [apply pair2|apply pair3|apply pair4]. }
    destruct HB as (H1 & H2 & H3). specialize (Hd hi H1). rewrite !phi_psi in Hd by lra. lra.
Qed.
Print Assumptions C181_optimal_refuted.

(** * C182: a part of the front is never reported *)
Theorem C182_missing_refuted : exists u, (forall n, (2 <= n)%nat -> optimal (zdt_box n) zdt3 u) /\
  forall N v, In v (zdt3_front N) -> 1 / 100000000 < Rabs (nth 0 v 0 - nth 0 u 0).
Proof.
  exists (vec3 tt0). split.
  - intros n Hn. apply zdt3_optimal; auto. exists tt0. split.
    + split; [unfold tt0; lra|]. apply tt0_min.
    + rewrite phi_psi by (unfold eps, tt0; lra). reflexivity.
  - intros N v Hv. apply C166_zdt3 in Hv. destruct Hv as (lo & hi & i & Hr & Hi & ->). cbn [nth vec3].
    assert (U : 0 <= Node (Nat.max 1 (N / 5)) i <= 1).
    { apply (linspace_unit (Nat.max 1 (N / 5))). change (linspace01 (Nat.max 1 (N / 5))) with (map (Node (Nat.max 1 (N / 5))) (seq 0 (Nat.max 1 (N / 5)))).
      apply in_map, in_seq. lia. }
    set (w := Node (Nat.max 1 (N / 5)) i) in *. unfold tt0.
    destruct Hr as [E|[E|[E|[E|[E|[]]]]]]; injection E as <- <-; [rewrite Rabs_left1; lra|rewrite Rabs_pos_eq; lra..].
Qed.
Print Assumptions C182_missing_refuted.

Example C181_example : In (0.2577623634, 0.4093136748) bad_pairs /\ (10 <= 100)%nat /\ (2 <= 30)%nat.
Proof. split; [left; reflexivity|lia]. Qed.
