(** Preconditioning of a symmetric matrix and preprocessing of a reference set. *)
From Coq Require Import List Arith Bool Reals ZArith Lia Lra Psatz.
From Verif Require Import Num Exn ListAux MiscModel.
Import ListNotations.
Open Scope R_scope.

Lemma st_ext n f g : (forall i, (i < n)%nat -> f i = g i) -> sum_to n f = sum_to n g.
Proof. induction n as [|n IH]; simpl; intros E; auto. rewrite IH, E; auto. Qed.
Lemma st_plus n f g : sum_to n (fun i => f i + g i) = sum_to n f + sum_to n g.
Proof. induction n as [|n IH]; simpl; [ring|]. rewrite IH. ring. Qed.
Lemma st_scal n c f : sum_to n (fun i => c * f i) = c * sum_to n f.
Proof. induction n as [|n IH]; simpl; [ring|]. rewrite IH. ring. Qed.
Lemma st_zero n f : (forall i, (i < n)%nat -> f i = 0) -> sum_to n f = 0.
Proof. induction n as [|n IH]; simpl; intros E; auto. rewrite IH, E by auto. ring. Qed.
Lemma st_swap n p (f : nat -> nat -> R) : sum_to n (fun i => sum_to p (f i)) = sum_to p (fun k => sum_to n (fun i => f i k)).
Proof. induction n as [|n IH]; simpl; [symmetry; apply st_zero; auto|]. rewrite IH, <- st_plus. reflexivity. Qed.
Lemma st_nonneg n f : (forall i, (i < n)%nat -> 0 <= f i) -> 0 <= sum_to n f.
Proof. induction n as [|n IH]; simpl; intros H; [lra|]. assert (0 <= sum_to n f) by auto. specialize (H n ltac:(lia)). lra. Qed.
Lemma st_single n k f : (k < n)%nat -> (forall i, (i < n)%nat -> i <> k -> f i = 0) -> sum_to n f = f k.
Proof.
  induction n as [|n IH]; simpl; intros Hk Hz; [lia|]. destruct (Nat.eq_dec k n) as [->|Hne].
  - rewrite st_zero; [ring|]. intros; apply Hz; lia.
  - rewrite IH, (Hz n); try lia; [ring|]. intros; apply Hz; lia.
Qed.
Lemma st_pos n k f : (forall i, (i < n)%nat -> 0 <= f i) -> (k < n)%nat -> 0 < f k -> 0 < sum_to n f.
Proof.
  induction n as [|n IH]; simpl; intros H Hk Hp; [lia|]. destruct (Nat.eq_dec k n) as [->|Hne].
  - assert (0 <= sum_to n f) by (apply st_nonneg; auto). lra.
  - assert (0 < sum_to n f) by (apply IH; auto; lia). specialize (H n ltac:(lia)). lra.
Qed.

(** x' M x *)
Definition quad (n : nat) (M : nat -> nat -> R) (x : nat -> R) : R :=
  sum_to n (fun i => sum_to n (fun j => x i * M i j * x j)).
Definition posdef (n : nat) (M : nat -> nat -> R) : Prop :=
  forall x, (exists i, (i < n)%nat /\ x i <> 0) -> 0 < quad n M x.
Definition symm (n : nat) (M : nat -> nat -> R) : Prop := forall i j, (i < n)%nat -> (j < n)%nat -> M i j = M j i.

(** what is assumed of [scipy.linalg.cholesky] on symmetric matrices: a returned factor is
    lower triangular with a positive diagonal, and its product is the matrix *)
Definition chol_ok (n : nat) (chol : (nat -> nat -> R) -> option (nat -> nat -> R)) : Prop :=
  forall M L, symm n M -> chol M = Some L ->
    (forall i j, (i < n)%nat -> (j < n)%nat -> sum_to n (fun k => L i k * L j k) = M i j) /\
    (forall i j, (i < j)%nat -> L i j = 0) /\ (forall i, (i < n)%nat -> 0 < L i i).
(** ... and that it finds one for every positive definite matrix *)
Definition chol_complete (n : nat) (chol : (nat -> nat -> R) -> option (nat -> nat -> R)) : Prop :=
  forall M, symm n M -> posdef n M -> chol M <> None.

Lemma quad_ext n M M' x : (forall i j, (i < n)%nat -> (j < n)%nat -> M i j = M' i j) -> quad n M x = quad n M' x.
Proof. intros H. apply st_ext. intros i Hi. apply st_ext. intros j Hj. rewrite H; auto. Qed.

Lemma quad_gram n L x : quad n (gram n L) x = sum_to n (fun k => (sum_to n (fun i => L i k * x i)) * (sum_to n (fun i => L i k * x i))).
Proof.
  unfold quad, gram.
  transitivity (sum_to n (fun i => sum_to n (fun k => sum_to n (fun j => x i * L i k * (L j k * x j))))).
  - apply st_ext. intros i Hi. rewrite st_swap. apply st_ext. intros j Hj.
    rewrite (Rmult_comm (x i)), Rmult_assoc, Rmult_comm, <- st_scal. apply st_ext. intros; ring.
  - rewrite st_swap. apply st_ext. intros k Hk.
    rewrite <- st_scal. apply st_ext. intros i Hi. rewrite st_scal. ring.
Qed.

Lemma last_nonzero n (x : nat -> R) : (exists i, (i < n)%nat /\ x i <> 0) ->
  exists k, (k < n)%nat /\ x k <> 0 /\ forall i, (k < i < n)%nat -> x i = 0.
Proof.
  induction n as [|n IH]; intros (i & Hi & Hx); [lia|].
  destruct (Req_EM_T (x n) 0) as [E|E].
  - destruct IH as (k & Hk & Hxk & Hz).
    + exists i. split; auto. destruct (Nat.eq_dec i n); [subst; contradiction|lia].
    + exists k. repeat split; auto. intros j Hj. destruct (Nat.eq_dec j n) as [->|]; auto. apply Hz; lia.
  - exists n. repeat split; auto. intros; lia.
Qed.

Lemma gram_posdef n L : (forall i j, (i < j)%nat -> L i j = 0) -> (forall i, (i < n)%nat -> 0 < L i i) -> posdef n (gram n L).
Proof.
  intros H0 H1 x Hx. destruct (last_nonzero n x Hx) as (k & Hk & Hxk & Hz).
  rewrite quad_gram. apply (st_pos n k); auto.
  - intros i Hi. cbv beta. nra.
  - cbv beta. rewrite (st_single n k); auto.
    + specialize (H1 k Hk). assert (L k k * x k <> 0) by (apply Rmult_integral_contrapositive; split; lra). nra.
    + intros i Hi Hne. destruct (Nat.lt_ge_cases i k); [rewrite H0 by auto|rewrite Hz by lia]; ring.
Qed.

Lemma quad_shift n H t x : quad n (shift H t) x = quad n H x + t * sum_to n (fun i => x i * x i).
Proof.
  unfold quad, shift. rewrite <- st_scal, <- st_plus. apply st_ext. intros i Hi.
  rewrite (st_ext n _ (fun j => x i * H i j * x j + (if (i =? j)%nat then t * (x i * x j) else 0))).
  - rewrite st_plus. f_equal. rewrite (st_single n i); auto.
    + rewrite Nat.eqb_refl. reflexivity.
    + intros j Hj Hne. destruct (Nat.eqb_spec i j); [congruence|reflexivity].
  - intros j Hj. destruct (Nat.eqb i j); ring.
Qed.

Lemma posdef_mono n H c t : c <= t -> posdef n (shift H c) -> posdef n (shift H t).
Proof.
  intros Hct Hp x Hx. specialize (Hp x Hx). rewrite quad_shift in *.
  assert (0 <= sum_to n (fun i => x i * x i)) by (apply st_nonneg; intros; nra). nra.
Qed.

Lemma shift_symm n H t : symm n H -> symm n (shift H t).
Proof. intros Hs i j Hi Hj. unfold shift. rewrite (Hs i j) by auto. rewrite (Nat.eqb_sym i j). reflexivity. Qed.
Lemma shift0 H i j : shift H 0 i j = H i j.
Proof. unfold shift. ring. Qed.

Lemma beta_pos : 0 < beta.
Proof. unfold beta. apply Rinv_0_lt_compat. lra. Qed.

(** the shifts tried one after the other *)
Fixpoint trial (tau0 : R) (k : nat) : R :=
  match k with O => tau0 | S k' => trial (Rmax (2 * tau0) beta) k' end.
Definition tau_start (n : nat) (H : nat -> nat -> R) : R :=
  if Rlt_dec 0 (min_diag H (n - 1)) then 0 else - min_diag H (n - 1) + beta.

Section PL.
Variable n : nat.
Variable chol : (nat -> nat -> R) -> option (nat -> nat -> R).
Hypothesis Hok : chol_ok n chol.
Variable H : nat -> nat -> R.
Hypothesis Hs : symm n H.

Lemma loop_spec tries tau : 0 <= tau ->
  match precond_loop chol H tries tau with
  | inl L => exists k, (k < tries)%nat /\ 0 <= trial tau k /\ chol (shift H (trial tau k)) = Some L /\
      forall j, (j < k)%nat -> chol (shift H (trial tau j)) = None
  | inr t => t = trial tau tries /\ 0 <= t /\ forall k, (k < tries)%nat -> chol (shift H (trial tau k)) = None
  end.
Proof.
  revert tau. induction tries as [|tries IH]; intros tau Ht; simpl.
  - repeat split; auto. intros; lia.
  - destruct (chol (shift H tau)) as [L|] eqn:E.
    + exists 0%nat. repeat split; auto; intros; lia.
    + assert (Ht' : 0 <= Rmax (2 * tau) beta) by (pose proof (Rmax_r (2 * tau) beta); pose proof beta_pos; lra).
      specialize (IH _ Ht'). destruct (precond_loop chol H tries (Rmax (2 * tau) beta)) as [L|t].
      * destruct IH as (k & Hk & H1 & H2 & H3). exists (S k). repeat split; auto; [lia|].
        intros [|j] Hj; simpl; auto. apply H3. lia.
      * destruct IH as (H1 & H2 & H3). repeat split; auto. intros [|k] Hk; simpl; auto. apply H3. lia.
Qed.

Lemma tau_start_nonneg : 0 <= tau_start n H.
Proof. unfold tau_start. pose proof beta_pos. destruct (Rlt_dec 0 (min_diag H (n - 1))); lra. Qed.

Lemma precond_shift : exists tau, 0 <= tau /\ (chol H <> None -> tau = 0) /\
  (forall i j, (i < n)%nat -> (j < n)%nat -> precondition_hessian n chol H i j = H i j + (if (i =? j)%nat then tau else 0)).
Proof using Hok Hs.
  unfold precondition_hessian. destruct (chol H) as [L|] eqn:E.
  - exists 0. split; [lra|]. split; auto. intros i j Hi Hj. destruct (Hok H L Hs E) as (H1 & _ & _).
    unfold gram. rewrite H1 by auto. destruct (i =? j)%nat; ring.
  - pose proof (loop_spec 45 (tau_start n H) tau_start_nonneg) as Hl. unfold tau_start in *.
    destruct (precond_loop chol H 45 _) as [L|t].
    + destruct Hl as (k & _ & Ht & EL & _). eexists. split; [exact Ht|]. split; [congruence|]. intros i j Hi Hj.
      destruct (Hok _ L (shift_symm n H _ Hs) EL) as (H1 & _ & _). unfold gram. rewrite H1 by auto. unfold shift.
      destruct (i =? j)%nat; ring.
    + destruct Hl as (_ & Ht & _). exists t. split; auto. split; [congruence|]. intros i j Hi Hj. unfold shift.
      destruct (i =? j)%nat; ring.
Qed.

Lemma precond_posdef : (chol H <> None \/ exists k, (k < 45)%nat /\ chol (shift H (trial (tau_start n H) k)) <> None) ->
  posdef n (precondition_hessian n chol H).
Proof using Hok Hs.
  intros Hc. unfold precondition_hessian. destruct (chol H) as [L|] eqn:E.
  - destruct (Hok H L Hs E) as (_ & H2 & H3). apply gram_posdef; auto.
  - destruct Hc as [Hc|(k & Hk & Hc)]; [congruence|].
    pose proof (loop_spec 45 (tau_start n H) tau_start_nonneg) as Hl. unfold tau_start in *.
    destruct (precond_loop chol H 45 _) as [L|t].
    + destruct Hl as (k' & _ & _ & EL & _).
      destruct (Hok _ L (shift_symm n H _ Hs) EL) as (_ & H2 & H3). apply gram_posdef; auto.
    + destruct Hl as (_ & _ & Hn). exfalso. apply Hc. apply Hn; auto.
Qed.

Lemma trial_lower tau k : beta * 2 ^ k <= tau -> forall j, beta * 2 ^ (k + j) <= trial tau j.
Proof.
  intros Hb j. revert tau k Hb. induction j as [|j IH]; intros tau k Hb; simpl.
  - rewrite Nat.add_0_r; auto.
  - rewrite Nat.add_succ_r, <- Nat.add_succ_l. apply IH. simpl.
    pose proof (Rmax_l (2 * tau) beta). lra.
Qed.

Lemma trial_44 : beta * 2 ^ 43 <= trial (tau_start n H) 44.
Proof using.
  assert (Hstep : forall tau k, beta * 2 ^ k <= trial tau (S k)).
  { intros tau k. apply (trial_lower (Rmax (2 * tau) beta) 0). simpl. pose proof (Rmax_r (2 * tau) beta). lra. }
  exact (Hstep (tau_start n H) 43%nat).
Qed.

Lemma precond_complete : chol_complete n chol -> (exists c, c <= beta * 2 ^ 43 /\ posdef n (shift H c)) ->
  posdef n (precondition_hessian n chol H).
Proof using Hok Hs.
  intros Hcomp (c & Hc & Hp). apply precond_posdef. right. exists 44%nat. split; [lia|].
  apply Hcomp; [apply shift_symm; auto|]. apply (posdef_mono n H c); auto. pose proof trial_44. lra.
Qed.
End PL.

(** * preprocess_reference_set *)
Lemma forallb_false {A} (f : A -> bool) l : forallb f l = false -> exists x, In x l /\ f x = false.
Proof.
  induction l as [|a l IH]; simpl; [discriminate|]. destruct (f a) eqn:E; simpl; [|intros _; exists a; auto].
  intros Hf. destruct (IH Hf) as (x & Hx & Ex). exists x. auto.
Qed.
Lemma isolated_false X i : isolated X i = false ->
  exists j, (j < length X)%nat /\ j <> i /\ row_close (nth j X []) (nth i X []) = true.
Proof.
  intros Hf. apply forallb_false in Hf as (j & Hj & E). apply in_seq in Hj.
  apply orb_false_iff in E as [E1 E2]. apply Nat.eqb_neq in E1. apply negb_false_iff in E2. exists j. repeat split; auto; lia.
Qed.
Lemma isolated_true X i : isolated X i = true ->
  forall j, (j < length X)%nat -> j <> i -> row_close (nth j X []) (nth i X []) = false.
Proof.
  unfold isolated. intros Hf j Hj Hne. rewrite forallb_forall in Hf. specialize (Hf j ltac:(apply in_seq; lia)).
  apply orb_true_iff in Hf as [E|E]; [apply Nat.eqb_eq in E; congruence|apply negb_true_iff in E; auto].
Qed.

(** [l] is obtained from [X] by deleting rows *)
Inductive sublist {A} : list A -> list A -> Prop :=
| sub_nil : sublist [] []
| sub_keep x l L : sublist l L -> sublist (x :: l) (x :: L)
| sub_drop x l L : sublist l L -> sublist l (x :: L).

Lemma sublist_refl {A} (l : list A) : sublist l l.
Proof. induction l; constructor; auto. Qed.
Lemma sublist_trans {A} (a b c : list A) : sublist a b -> sublist b c -> sublist a c.
Proof.
  intros Hab Hbc. revert a Hab. induction Hbc as [|x b c Hbc IH|x b c Hbc IH]; intros a Hab; auto.
  - inversion Hab; subst; constructor; auto.
  - constructor; auto.
Qed.
Lemma sublist_filter_map {A} (f : A -> bool) l : sublist (filter f l) l.
Proof. induction l as [|x l IH]; simpl; [constructor|]. destruct (f x); constructor; auto. Qed.
Lemma sublist_map {A B} (f : A -> B) l L : sublist l L -> sublist (map f l) (map f L).
Proof. induction 1; simpl; constructor; auto. Qed.
Lemma map_nth_all {A} (X : list A) d : map (fun i => nth i X d) (seq 0 (length X)) = X.
Proof.
  apply (list_eq_nth d); rewrite map_length, seq_length; auto. intros i Hi.
  rewrite (nth_map_default _ _ _ 0%nat) by (rewrite seq_length; auto). rewrite seq_nth by auto. reflexivity.
Qed.
Lemma dedup_sublist X : sublist (dedup_ref X) X.
Proof.
  unfold dedup_ref. destruct (50 <? length (isolated_idx X))%nat; [|apply sublist_refl].
  pose proof (sublist_map (fun i => nth i X []) _ _ (sublist_filter_map (isolated X) (seq 0 (length X)))) as P.
  rewrite (map_nth_all X []) in P. exact P.
Qed.
Lemma combine_sublist {A} (out : list bool) (X : list A) : sublist (map snd (filter (fun sx => negb (fst sx)) (combine out X))) X.
Proof.
  revert out. induction X as [|x X IH]; intros [|b out]; simpl.
  - constructor.
  - constructor.
  - apply sub_drop. clear. induction X; constructor; auto.
  - destruct b; simpl; constructor; auto.
Qed.
Lemma preprocess_sublist lof X : sublist (preprocess_reference_set lof X) X.
Proof. unfold preprocess_reference_set. eapply sublist_trans; [apply combine_sublist|apply dedup_sublist]. Qed.

Lemma dedup_keeps X i : (i < length X)%nat ->
  (forall j, (j < length X)%nat -> j <> i -> row_close (nth j X []) (nth i X []) = false) -> In (nth i X []) (dedup_ref X).
Proof.
  intros Hi Hc. unfold dedup_ref. destruct (50 <? length (isolated_idx X))%nat; [|apply nth_In; auto].
  apply in_map_iff. exists i. split; auto. unfold isolated_idx. apply filter_In. split; [apply in_seq; lia|].
  unfold isolated. apply forallb_forall. intros j Hj. apply in_seq in Hj. apply orb_true_iff.
  destruct (Nat.eqb_spec j i); auto. right. rewrite Hc by (auto; lia). reflexivity.
Qed.
Lemma dedup_few X : (length (isolated_idx X) <= 50)%nat -> dedup_ref X = X.
Proof. intros H. unfold dedup_ref. destruct (Nat.ltb_spec 50 (length (isolated_idx X))); auto. lia. Qed.
Lemma dedup_many X : (50 < length (isolated_idx X))%nat ->
  dedup_ref X = map (fun i => nth i X []) (isolated_idx X) /\
  forall i j, In i (isolated_idx X) -> (j < length X)%nat -> j <> i -> row_close (nth j X []) (nth i X []) = false.
Proof.
  intros H. unfold dedup_ref. destruct (Nat.ltb_spec 50 (length (isolated_idx X))); [|lia]. split; auto.
  intros i j Hi Hj Hne. apply isolated_true; auto. apply filter_In in Hi. apply Hi.
Qed.

(** rows 0, 1, ..., 51 and a second copy of row 51: both copies are dropped *)
Definition dup_rows : list (list R) := map (fun i => [INR i]) (seq 0 52) ++ [[INR 51]].
Lemma isclose_INR a b : (a <= 51)%nat -> (b <= 51)%nat -> isclose (INR a) (INR b) = (a =? b)%nat.
Proof.
  intros Ha Hb. unfold isclose. destruct (Rle_dec _ _) as [Hl|Hl], (Nat.eqb_spec a b) as [E|E]; auto; exfalso.
  - assert (1 <= Rabs (INR a - INR b)).
    { apply le_INR in Ha, Hb. destruct (Nat.lt_ge_cases a b) as [Hab|Hab].
      - apply le_INR in Hab. rewrite S_INR in Hab. rewrite Rabs_left1; lra.
      - assert (Hab' : (S b <= a)%nat) by lia. apply le_INR in Hab'. rewrite S_INR in Hab'. rewrite Rabs_pos_eq; lra. }
    rewrite (Rabs_pos_eq (INR b)) in Hl by apply pos_INR. apply le_INR in Hb.
    replace (INR 51) with 51 in Hb by (simpl; lra). lra.
  - apply Hl. subst. rewrite Rminus_eq_0, Rabs_R0. pose proof (Rabs_pos (INR b)). lra.
Qed.
Lemma dup_nth i : (i < 53)%nat -> nth i dup_rows [] = [INR (Nat.min i 51)].
Proof.
  intros Hi. unfold dup_rows. destruct (Nat.lt_ge_cases i 52).
  - rewrite app_nth1 by (rewrite map_length, seq_length; auto).
    rewrite (nth_map_default _ _ _ 0%nat) by (rewrite seq_length; auto). rewrite seq_nth by auto. rewrite Nat.min_l by lia. reflexivity.
  - assert (i = 52)%nat by lia. subst. reflexivity.
Qed.
Lemma dup_idx : isolated_idx dup_rows = seq 0 51.
Proof.
  assert (Hlen : length dup_rows = 53%nat) by reflexivity.
  assert (E : forall i, (i < 53)%nat -> isolated dup_rows i = (i <? 51)%nat).
  { intros i Hi. destruct (Nat.ltb_spec i 51).
    - unfold isolated. apply forallb_forall. intros j Hj. rewrite Hlen in Hj. apply in_seq in Hj.
      destruct (Nat.eqb_spec j i); auto. cbn [orb]. rewrite !dup_nth by lia. cbn [row_close].
      rewrite isclose_INR by lia. rewrite andb_true_r. apply negb_true_iff. apply Nat.eqb_neq. lia.
    - destruct (isolated dup_rows i) eqn:Ei; auto. exfalso.
      pose proof (isolated_true dup_rows i Ei (103 - i)%nat ltac:(rewrite Hlen; lia) ltac:(lia)) as Hc.
      rewrite !dup_nth in Hc by lia. cbn [row_close] in Hc. rewrite isclose_INR in Hc by lia.
      rewrite andb_true_r in Hc. apply Nat.eqb_neq in Hc. lia. }
  unfold isolated_idx. rewrite Hlen.
  rewrite (filter_ext_in _ (fun i => (i <? 51)%nat)) by (intros a Ha; apply E; apply in_seq in Ha; lia). reflexivity.
Qed.
Lemma dup_dropped : ~ In [INR 51] (dedup_ref dup_rows) /\ In [INR 51] dup_rows.
Proof.
  split; [|apply in_or_app; right; simpl; auto].
  intros Hc. destruct (dedup_many dup_rows) as [E _]; [rewrite dup_idx, seq_length; lia|].
  rewrite E, dup_idx in Hc. apply in_map_iff in Hc as (i & Ei & Hi). apply in_seq in Hi. rewrite dup_nth in Ei by lia.
  assert (Eh : INR (Nat.min i 51) = INR 51) by exact (f_equal (fun l => nth 0 l 0) Ei). apply INR_eq in Eh. lia.
Qed.
