From Coq Require Import List Arith Lia Reals Lra Bool.
From Coquelicot Require Import Coquelicot.
From Verif Require Import Num Exn ListAux HVModel HVSpec HVTheory HVTop HVExtra
  HVDModel HVDSpec HVDTheory HVDProof HVDTop HVHTheory HVHProof HVDFacts HVXModel HVXSpec HVXProof HVChain HVSym HVXTop AdModel AdSpec.
Import ListNotations.
Open Scope R_scope.

(** * flattening *)
Lemma concat_length_rows m (Y : list vec) : (forall y, In y Y -> length y = m) -> length (concat Y) = (length Y * m)%nat.
Proof. induction Y as [|y Y IH]; simpl; intros H; auto. rewrite app_length, IH, (H y) by auto. auto. Qed.
Lemma chunks_concat m (Y : list vec) : (forall y, In y Y -> length y = m) -> chunks (length Y) m (concat Y) = Y.
Proof.
  induction Y as [|y Y IH]; simpl; intros H; auto. assert (Hy : length y = m) by auto. rewrite <- Hy at 1 3.
  rewrite firstn_app, skipn_app, Nat.sub_diag, firstn_all, skipn_all. simpl. rewrite app_nil_r, IH by auto. auto.
Qed.
Lemma reshape_concat m (Y : list vec) : (1 <= m)%nat -> (forall y, In y Y -> length y = m) -> reshape m (concat Y) = Ok Y.
Proof.
  intros Hm H. unfold reshape. rewrite (concat_length_rows m) by auto. destruct (Nat.eqb_spec m 0); [lia|].
  rewrite Nat.mod_mul by lia. simpl. rewrite Nat.div_mul by lia. rewrite chunks_concat by auto. auto.
Qed.
Lemma nth_concat m (Y : list vec) i k : (forall y, In y Y -> length y = m) -> (i < length Y)%nat -> (k < m)%nat -> nth (i * m + k) (concat Y) 0 = coord Y i k.
Proof.
  revert i. induction Y as [|y Y IH]; simpl; intros i H Hi Hk; [lia|]. assert (Hy : length y = m) by auto. destruct i as [|i]; simpl.
  - rewrite app_nth1 by lia. reflexivity.
  - rewrite app_nth2 by lia. replace (m + i * m + k - length y)%nat with (i * m + k)%nat by lia. rewrite IH by (auto; lia). reflexivity.
Qed.
Lemma set_at_app1 {A} r (t : A) a b : (r < length a)%nat -> set_at r t (a ++ b) = set_at r t a ++ b.
Proof. revert r. induction a as [|x a IH]; simpl; intros [|r] H; try lia; auto. simpl. rewrite IH by lia. auto. Qed.
Lemma set_at_app2 {A} r (t : A) a b : set_at (length a + r) t (a ++ b) = a ++ set_at r t b.
Proof. induction a as [|x a IH]; simpl; auto. rewrite IH. auto. Qed.
Lemma set_concat m (Y : list vec) i k t : (forall y, In y Y -> length y = m) -> (i < length Y)%nat -> (k < m)%nat -> set_at (i * m + k) t (concat Y) = concat (set_coord Y i k t).
Proof.
  revert i. induction Y as [|y Y IH]; simpl; intros i H Hi Hk; [lia|]. assert (Hy : length y = m) by auto. destruct i as [|i]; simpl.
  - rewrite set_at_app1 by lia. reflexivity.
  - replace (m + i * m + k)%nat with (length y + (i * m + k))%nat by lia. rewrite set_at_app2, IH by (auto; lia). reflexivity.
Qed.
Lemma flat_index m N r : (1 <= m)%nat -> (r < N * m)%nat -> exists i k, r = (i * m + k)%nat /\ (i < N)%nat /\ (k < m)%nat.
Proof.
  intros Hm Hr. exists (r / m)%nat, (r mod m)%nat. split; [rewrite (Nat.mul_comm _ m); apply Nat.div_mod; lia|].
  split; [apply Nat.div_lt_upper_bound; lia|apply Nat.mod_upper_bound; lia].
Qed.

Section Space.
Variable minf : R.
Variable argsort : list R -> list nat.
Hypothesis Hargsort : argsort_ok argsort.
Variable ref : list R.

Lemma good_value F : (1 <= length ref)%nat -> good ref F -> above_all minf F ref -> hypervolume minf argsort F ref = Ok (HVof F ref).
Proof using Hargsort.
  intros H1 (Hr & HG & Hin) Hab. apply hypervolume_ok; auto. split; auto. split; auto. split.
  - intros p k Hp _ Hk. apply (In_nth _ _ []) in Hp as (i & Hi & <-). apply Hab; auto.
  - right. left. apply distinct_harmless; auto.
    + intros p k Hp Hk. apply (In_nth _ _ []) in Hp as (i & Hi & <-). apply Hin; auto.
    + intros i j k Hi Hj Hne Hk. apply (proj1 HG j k Hj Hk i Hi Hne).
Qed.

Lemma rows_of F : rows_ok F ref -> forall y, In y F -> length y = length ref.
Proof. auto. Qed.
Lemma HVY_value F : (1 <= length ref)%nat -> good ref F -> above_all minf F ref -> HVY minf argsort (length ref) ref (concat F) = Ok (HVof F ref).
Proof using Hargsort. intros H1 Hg Hab. unfold HVY. rewrite reshape_concat by (auto; apply Hg). cbn [bind]. apply good_value; auto. Qed.

Lemma above_weak F : strictly_above minf F ref -> above_all minf F ref.
Proof. intros H i k Hi Hk. left. auto. Qed.

Lemma above_local F j l : strictly_above minf F ref -> (j < length F)%nat -> rows_ok F ref -> (l < length ref)%nat ->
  locally (coord F j l) (fun t => strictly_above minf (set_coord F j l t) ref).
Proof.
  intros H Hj Hr Hl. assert (L : locally (coord F j l) (fun t => minf + nth l ref 0 < t)).
  { apply (open_gt (minf + nth l ref 0)). specialize (H j l Hj Hl). lra. }
  generalize L. apply filter_imp. intros t Ht i k Hi Hk. unfold set_coord in *. rewrite set_at_length in Hi. unfold coord. rewrite nth_set_at by auto.
  destruct (Nat.eqb_spec i j) as [->|Hne]; [|apply H; auto]. rewrite nth_set_at by (rewrite (Hr (nth j F [])) by (apply nth_In; auto); auto).
  destruct (Nat.eqb_spec k l) as [->|Hkl]; [lra|apply (H j k); auto].
Qed.
Lemma good_coord F j l : good ref F -> (j < length F)%nat -> (l < length ref)%nat -> locally (coord F j l) (fun t => good ref (set_coord F j l t)).
Proof.
  intros Hg Hj Hl. apply (good_local ref F Hg j (fun t => set_at l t (nth j F [])) (fun c => if (c =? l)%nat then 1 else 0)); auto.
  apply coord_lpath; auto. apply Hg. apply nth_In; auto.
Qed.

Lemma HVY_gradient F : (1 <= length ref)%nat -> good ref F -> strictly_above minf F ref ->
  is_gradient (HVY minf argsort (length ref) ref) (concat F) (fun r => gradf F ref (r / length ref) (r mod length ref)).
Proof using Hargsort.
  intros H1 Hg Hab r Hr. assert (Hg0 := Hg). destruct Hg0 as (Hro & HG & Hin). rewrite (concat_length_rows (length ref)) in Hr by auto.
  destruct (flat_index _ _ _ H1 Hr) as (i & k & -> & Hi & Hk). rewrite nth_concat, div_block, mod_block by auto.
  exists (fun t => HVof (set_coord F i k t) ref). split.
  - generalize (filter_and _ _ (good_coord F i k Hg Hi Hk) (above_local F i k Hab Hi Hro Hk)). apply filter_imp. intros t (G & A).
    rewrite set_concat by auto. apply HVY_value; auto. apply above_weak; auto.
  - unfold set_coord. rewrite <- (sumn_pick (length ref) k (gradf F ref i)) by auto.
    apply (HV_path F ref Hro HG Hin i (fun t => set_at k t (nth i F [])) (fun c => if (c =? k)%nat then 1 else 0)); auto.
    apply coord_lpath; auto. apply Hro. apply nth_In; auto.
Qed.

Lemma HVY_hessian F d : length ref = S (S d) -> good ref F -> strictly_above minf F ref ->
  is_hessian (HVY minf argsort (length ref) ref) (concat F)
    (fun r s => hessf F ref d (r / length ref) (r mod length ref) (s / length ref) (s mod length ref)).
Proof using Hargsort.
  intros Hd Hg Hab r s Hr Hs. assert (H1 : (1 <= length ref)%nat) by lia. assert (Hg0 := Hg). destruct Hg0 as (Hro & HG & Hin).
  rewrite (concat_length_rows (length ref)) in Hr, Hs by auto.
  destruct (flat_index _ _ _ H1 Hr) as (i & k & -> & Hi & Hk). destruct (flat_index _ _ _ H1 Hs) as (j & l & -> & Hj & Hl).
  rewrite nth_concat, !div_block, !mod_block by auto.
  exists (fun t => gradf (set_coord F j l t) ref i k). split.
  - generalize (filter_and _ _ (good_coord F j l Hg Hj Hl) (above_local F j l Hab Hj Hro Hl)). apply filter_imp. intros t (G & A).
    eexists. split; [rewrite set_concat by auto; apply HVY_gradient; auto|]. cbv beta. rewrite div_block, mod_block by auto. reflexivity.
  - rewrite <- (sumn_pick (length ref) l (hessf F ref d i k j)) by auto. unfold set_coord.
    apply (grad_path F ref d Hro HG Hin Hd i k j (fun t => set_at l t (nth j F [])) (fun c => if (c =? l)%nat then 1 else 0)); auto.
    apply coord_lpath; auto. apply Hro. apply nth_In; auto.
Qed.
End Space.
