(** A sort that reverses equal elements, and runs of the model with it. *)
From Coq Require Import List Arith Lia ZArith Reals Lra Permutation Sorting.Sorted.
From Verif Require Import Num Exn ListAux HVModel HVSpec HVTheory HVHom HVDModel HVDSpec HVDTheory HVDProof HVDTop HVHTheory HVHProof
  HVDHom HVDEval HVDFacts.
Import ListNotations.
Open Scope R_scope.

Section Rev.
Context {T : Type} `{NT : Num T}.
Fixpoint ins_rev (l : list T) (i : nat) (acc : list nat) : list nat :=
  match acc with
  | [] => [i]
  | j :: acc' => if nltb (nth i l nzero) (nth j l nzero) then i :: acc else j :: ins_rev l i acc'
  end.
Definition rev_argsort (l : list T) : list nat := fold_right (ins_rev l) [] (seq 0 (length l)).
End Rev.

Lemma hom_rev_argsort {T U} `{NT : Num T} `{NU : Num U} (h : T -> U) {Hh : NumHom h} l :
  rev_argsort (map h l) = rev_argsort l.
Proof.
  assert (Hi : forall i acc, ins_rev (map h l) i acc = ins_rev l i acc).
  { intros i. induction acc as [|j acc IH]; simpl; auto.
    rewrite <- (hom_zero (h:=h)), !map_nth, hom_ltb, IH; auto. }
  unfold rev_argsort. rewrite map_length. induction (seq 0 (length l)) as [|i s IH]; simpl; auto.
  rewrite IH. apply Hi.
Qed.

Lemma ins_rev_perm (l : list R) i acc : Permutation (ins_rev l i acc) (i :: acc).
Proof.
  induction acc as [|j acc IH]; simpl; auto. destruct (nltb _ _); auto.
  rewrite IH. apply perm_swap.
Qed.
Lemma rev_argsort_ok : argsort_ok (rev_argsort (T:=R)).
Proof.
  assert (Hins : forall (l : list R) i acc, StronglySorted (fun a b => (nth a l 0 <= nth b l 0)%R) acc ->
    StronglySorted (fun a b => (nth a l 0 <= nth b l 0)%R) (ins_rev l i acc)).
  { intros l i. induction acc as [|j acc IH]; intros Hs; simpl; [constructor; constructor|].
    inversion Hs as [|? ? H1 H2]; subst. change (@nzero R _) with 0%R.
    destruct (nltb_spec (nth i l 0%R) (nth j l 0%R)) as [Hl|Hl].
    + constructor; auto. constructor; [lra|].
      rewrite Forall_forall in *. intros x Hx. specialize (H2 x Hx). lra.
    + constructor; [auto|]. rewrite Forall_forall in *. intros x Hx.
      apply (Permutation_in _ (ins_rev_perm l i acc)) in Hx. destruct Hx as [<-|Hx]; auto. lra. }
  intros l. unfold rev_argsort. split.
  - induction (seq 0 (length l)) as [|i s IH]; simpl; auto. rewrite ins_rev_perm. auto.
  - induction (seq 0 (length l)) as [|i s IH]; simpl; [constructor|]. apply Hins; auto.
Qed.

(** five objectives, equal coordinates *)
Definition F5u : list (list Z) := [[1;1;1;2;0];[1;1;1;0;1];[1;2;0;0;1]]%Z.
Definition r5u : list Z := [3;3;3;3;3]%Z.
Lemma run5u : exists g, hypervolume_dY (IZR (-100)) rev_argsort (ofZ F5u) (map IZR r5u) = Ok g /\ coord g 0 3 = 0.
Proof.
  eexists. split.
  - rewrite (hom_hypervolume_dY IZR rev_argsort rev_argsort); [vm_compute (hypervolume_dY _ _ _ _); reflexivity|].
    apply hom_rev_argsort; auto with typeclass_instances.
  - rewrite coord_IZR. reflexivity.
Qed.
Lemma true5u : gradf (ofZ F5u) (map IZR r5u) 0 3 = -8.
Proof. rewrite gradf_eval. reflexivity. Qed.

(** six objectives, general position *)
Definition F6u : list (list Z) := [[4;4;4;1;4;2];[3;3;1;4;3;4];[1;1;3;2;2;3];[2;2;2;3;1;1]]%Z.
Definition r6u : list Z := [5;5;5;5;5;5]%Z.
Lemma run6u : exists H, compute_HVdY2 (IZR (-100)) rev_argsort 6 (ofZ F6u) (map IZR r6u) = Ok H /\ hentry H 1 5 0 2 = 3.
Proof.
  eexists. split.
  - rewrite (hom_compute_HVdY2 IZR rev_argsort rev_argsort); [vm_compute (compute_HVdY2 _ _ _ _ _); reflexivity|].
    apply hom_rev_argsort; auto with typeclass_instances.
  - reflexivity.
Qed.
Lemma true6u : hessf (ofZ F6u) (map IZR r6u) 4 1 5 0 2 = 0.
Proof. rewrite hessf_eval. vm_compute. reflexivity. Qed.
