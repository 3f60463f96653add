(** Routines that satisfy what is assumed of scipy's, numpy's and scikit-learn's: assignments by
    trying all permutations.  They show that the assumptions can be met. *)
From Coq Require Import List Arith Bool Reals Lia Lra Permutation Sorting.Sorted.
From Verif Require Import Num Exn ListAux NewtonModel NewtonProof RefModel RefSpec.
Import ListNotations.
Open Scope R_scope.

Fixpoint inserts {A} (x : A) (l : list A) : list (list A) :=
  match l with [] => [[x]] | y :: t => (x :: y :: t) :: map (cons y) (inserts x t) end.
Fixpoint perms {A} (l : list A) : list (list A) :=
  match l with [] => [[]] | x :: t => flat_map (inserts x) (perms t) end.
Lemma inserts_perm {A} (x : A) l p : In p (inserts x l) -> Permutation (x :: l) p.
Proof.
  revert p. induction l as [|y l IH]; simpl; intros p H. destruct H as [<-|[]]; auto.
  destruct H as [<-|H]; auto. apply in_map_iff in H as (q & <- & H). apply IH in H. eapply perm_trans; [apply perm_swap|]. constructor. auto.
Qed.
Lemma inserts_split {A} (x : A) a b : In (a ++ x :: b) (inserts x (a ++ b)).
Proof. induction a as [|y a IH]; simpl. destruct b; simpl; auto. right. apply in_map. auto. Qed.
Lemma perms_spec {A} (l p : list A) : In p (perms l) <-> Permutation l p.
Proof.
  revert p. induction l as [|x l IH]; simpl; intros p. split. intros [<-|[]]; auto. intros H. apply Permutation_nil in H. auto.
  rewrite in_flat_map. split.
  - intros (q & H1 & H2). apply IH in H1. apply inserts_perm in H2. eapply perm_trans; [|exact H2]. constructor; auto.
  - intros H. assert (Hx : In x p) by (eapply Permutation_in; eauto; simpl; auto). apply in_split in Hx as (a & b & ->).
    exists (a ++ b). split. apply IH. apply Permutation_cons_app_inv in H. auto. apply inserts_split.
Qed.

(** the first of the cheapest elements *)
Fixpoint cheapest {A} (cost : A -> R) (d : A) (l : list A) : A :=
  match l with [] => d | x :: t => let y := cheapest cost d t in if rleb (cost x) (cost y) then x else y end.
Lemma cheapest_spec {A} (cost : A -> R) d l : (In (cheapest cost d l) l \/ cheapest cost d l = d) /\ cost (cheapest cost d l) <= cost d /\ forall x, In x l -> cost (cheapest cost d l) <= cost x.
Proof.
  induction l as [|x l (IH1 & IH2 & IH3)]; simpl. split; auto. split. lra. intros x [].
  destruct (rleb (cost x) (cost (cheapest cost d l))) eqn:Ex.
  - apply rleb_true in Ex. split; auto. split. lra. intros y [<-|Hy]. lra. specialize (IH3 y Hy). lra.
  - apply rleb_false in Ex. split. tauto. split. auto. intros y [<-|Hy]. lra. auto.
Qed.
Definition lsa0 (C : list (list R)) : res (list nat * list nat) :=
  let n := length C in
  if forallb (fun r => (length r =? n)%nat) C
  then Ok (seq 0 n, cheapest (fun p => total C (seq 0 n, p)) (seq 0 n) (perms (seq 0 n)))
  else Exn ValueError.

Lemma sorted_seq l : forall k n, StronglySorted lt l -> length l = n -> (forall i, In i l -> (k <= i < k + n)%nat) -> l = seq k n.
Proof.
  induction l as [|a l IH]; intros k n Hs Hl Hb; simpl in Hl; subst n; auto. inversion Hs as [|? ? S1 S2]; subst. cbn [seq length].
  assert (Hlen : forall (l : list nat) lo hi, StronglySorted lt l -> (forall i, In i l -> (lo <= i < hi)%nat) -> (length l <= hi - lo)%nat).
  { clear. induction l as [|a l IH]; intros lo hi Hs Hb; simpl. lia. inversion Hs as [|? ? S1 S2]; subst. rewrite Forall_forall in S2.
    pose proof (Hb a (or_introl eq_refl)). specialize (IH (S a) hi S1 ltac:(intros i Hi; specialize (S2 i Hi); specialize (Hb i (or_intror Hi)); lia)). lia. }
  rewrite Forall_forall in S2. pose proof (Hb a (or_introl eq_refl)) as Ha. cbn [length] in *.
  assert (Hl : (length l <= k + S (length l) - S a)%nat). { apply Hlen; auto. intros i Hi. specialize (S2 i Hi). specialize (Hb i (or_intror Hi)). lia. }
  assert (a = k) by lia. subst a. f_equal. apply IH; auto. intros i Hi. specialize (S2 i Hi). specialize (Hb i (or_intror Hi)). lia.
Qed.
Lemma seq_sorted n : forall k, StronglySorted lt (seq k n).
Proof. induction n as [|n IH]; intros k; simpl; constructor; auto. apply Forall_forall. intros i Hi. apply in_seq in Hi. lia. Qed.
Lemma assignment_square n a : assignment n n a -> fst a = seq 0 n /\ Permutation (seq 0 n) (snd a).
Proof.
  intros (A1 & A2 & A3 & A4 & A5 & A6). rewrite Nat.min_id in *. split.
  - apply sorted_seq; auto. intros i Hi. specialize (A4 i Hi). lia.
  - apply Permutation_sym. apply NoDup_Permutation_bis; auto. rewrite seq_length; lia. intros i Hi. apply in_seq. specialize (A6 i Hi). lia.
Qed.
Lemma lsa0_ok : lsa_ok lsa0.
Proof.
  intros C m a Hr E. unfold lsa0 in E. destruct (forallb _ C) eqn:Ef; [|discriminate]. injection E as <-. rewrite forallb_forall in Ef. set (n := length C) in *.
  destruct C as [|r0 C0] eqn:EC.
  - subst n. replace (cheapest _ _ _) with (@nil nat) by (simpl; destruct (rleb _ _); auto). cbn [length seq]. split. { unfold assignment. cbn. split; [auto|]. split; [auto|]. split; [apply SSorted_nil|]. split; [intros i []|]. split; [apply NoDup_nil|intros i []]. } intros [[|? ?] c] (A1 & _); [|discriminate]. unfold total. simpl. lra.
  - assert (m = n). { rewrite <- (Hr r0) by (simpl; auto). apply Nat.eqb_eq. apply Ef. simpl; auto. } subst m.
    set (cost := fun p => total (r0 :: C0) (seq 0 n, p)). destruct (cheapest_spec cost (seq 0 n) (perms (seq 0 n))) as (H1 & H2 & H3). set (p := cheapest cost (seq 0 n) (perms (seq 0 n))) in *.
    assert (Hp : Permutation (seq 0 n) p). { destruct H1 as [H1| ->]; auto. apply perms_spec. auto. }
    split.
    + assert (Lp : length p = n) by (rewrite <- (Permutation_length Hp); apply seq_length). fold n. repeat split; cbn [fst snd]; rewrite ?Nat.min_id; auto.
      apply seq_length. apply seq_sorted. intros i Hi. apply in_seq in Hi. lia. eapply Permutation_NoDup; [exact Hp|apply seq_NoDup].
      intros j Hj. apply (Permutation_in _ (Permutation_sym Hp)) in Hj. apply in_seq in Hj. lia.
    + intros a' Ha'. fold n in Ha'. apply assignment_square in Ha' as [E1 E2]. destruct a' as [r c]. cbn [fst snd] in *. subst r. apply (H3 c). apply perms_spec. auto.
Qed.
Lemma lsa0_total C : (forall r, In r C -> length r = length C) -> exists a, lsa0 C = Ok a.
Proof.
  intros H. unfold lsa0. destruct (forallb _ C) eqn:E; eauto. exfalso. assert (forallb (fun r => (length r =? length C)%nat) C = true); [|congruence].
  apply forallb_forall. intros r Hr. apply Nat.eqb_eq. auto.
Qed.
Definition kmedoids0 (comp : list (list R)) (k : nat) : res (list nat) := if (k <=? length comp)%nat then Ok (seq 0 k) else Exn ValueError.
Lemma kmedoids0_ok : kmedoids_ok kmedoids0.
Proof.
  intros comp k r E. unfold kmedoids0 in E. destruct (Nat.leb_spec k (length comp)); [|discriminate]. injection E as <-. split. apply seq_length. split. apply seq_NoDup.
  intros i Hi. apply in_seq in Hi. lia.
Qed.
Lemma kmedoids0_total comp k : (k <= length comp)%nat -> exists r, kmedoids0 comp k = Ok r.
Proof. intros H. unfold kmedoids0. apply Nat.leb_le in H. rewrite H. eauto. Qed.
