(** The shifted points on doubles and what the rounding of the shift does to the volume. *)
From Coq Require Import ZArith Reals Lra List Arith Lia Bool Permutation Sorted FunctionalExtensionality.
From Flocq Require Import Core IEEE754.BinarySingleNaN.
From Verif Require Import Num Exn ListAux NDSSpec HVSpec HVModel HVTheory HVLinks HVProof HVTop HVHom HVExtra DblModel DblSpec DblNDS DblSim DblTop.
Import ListNotations.
Open Scope nat_scope.

Notation dR := (fun x : double => B2R x).
Notation rnd := (round radix2 (SpecFloat.fexp 53 1024) ZnearestE).
Notation fmt := (generic_format radix2 (SpecFloat.fexp 53 1024)).

(** * The operations without overflow *)
Lemma dplus_ok (x y : double) : is_finite x = true -> is_finite y = true -> (Rabs (rnd (B2R x + B2R y)) < bpow radix2 1024)%R ->
  is_finite (nadd x y) = true /\ B2R (nadd x y) = rnd (B2R x + B2R y).
Proof.
  intros Hx Hy H. pose proof (Bplus_correct 53 1024 _ _ mode_NE x y Hx Hy) as C. simpl round_mode in C.
  rewrite Rlt_bool_true in C by exact H. unfold nadd, NumD. tauto.
Qed.
Lemma dminus_ok (x y : double) : is_finite x = true -> is_finite y = true -> (Rabs (rnd (B2R x - B2R y)) < bpow radix2 1024)%R ->
  is_finite (nsub x y) = true /\ B2R (nsub x y) = rnd (B2R x - B2R y).
Proof.
  intros Hx Hy H. pose proof (Bminus_correct 53 1024 _ _ mode_NE x y Hx Hy) as C. simpl round_mode in C.
  rewrite Rlt_bool_true in C by exact H. unfold nsub, NumD. tauto.
Qed.
Lemma dmult_ok (x y : double) : is_finite x = true -> is_finite y = true -> (Rabs (rnd (B2R x * B2R y)) < bpow radix2 1024)%R ->
  is_finite (nmul x y) = true /\ B2R (nmul x y) = rnd (B2R x * B2R y).
Proof.
  intros Hx Hy H. pose proof (Bmult_correct 53 1024 _ _ mode_NE x y) as C. simpl round_mode in C.
  rewrite Rlt_bool_true in C by exact H. rewrite Hx, Hy in C. unfold nmul, NumD. tauto.
Qed.

(** * The relevant points *)
Lemma weakly_dom_val : forall (p q : list double), (forall x, In x p -> is_finite x = true) -> (forall x, In x q -> is_finite x = true) ->
  weakly_dom p q = weakly_dom (map dR p) (map dR q).
Proof.
  induction p as [|x p IH]; intros [|y q] Hp Hq; simpl; auto.
  rewrite IH by (intros; simpl in *; auto). f_equal. unfold nleb. rewrite fin_ltb by (simpl in *; auto). reflexivity.
Qed.
Lemma vsub_len : forall (p r : list double), length p = length r -> length (vsub p r) = length r.
Proof. induction p; intros [|y r] H; simpl in *; try discriminate; auto. Qed.
Lemma vsub_nth : forall (p r : list double) k, length p = length r -> k < length r ->
  nth k (vsub p r) d0 = nsub (nth k p d0) (nth k r d0).
Proof.
  induction p as [|x p IH]; intros [|y r] k H Hk; simpl in *; try discriminate; [lia|].
  destruct k; auto. apply IH; lia.
Qed.
Lemma filter_map_comm {A B} (f : A -> B) (g : B -> bool) (h : A -> bool) l : (forall x, In x l -> g (f x) = h x) ->
  filter g (map f l) = map f (filter h l).
Proof.
  induction l as [|x l IH]; intros H; simpl; auto. rewrite H by (simpl; auto). rewrite IH by (intros; apply H; simpl; auto).
  destruct (h x); auto.
Qed.
Lemma nth_dR (p : list double) k : nth k (map dR p) 0%R = B2R (nth k p d0).
Proof. change 0%R with (dR d0). apply map_nth. Qed.
Lemma neqb_zero (x : double) : is_finite x = true -> neqb x nzero = true -> B2R x = 0%R.
Proof.
  unfold neqb, nleb. intros Hx H. change nzero with d0 in H. rewrite !fin_ltb in H by auto.
  apply andb_prop in H as [H1 H2]. apply negb_true_iff in H1, H2. apply nltb_false in H1, H2. simpl in *. lra.
Qed.

Section Rel.
Variables (front : list (list double)) (ref : list double).
Hypothesis Hrows : forall p, In p front -> length p = length ref.
Hypothesis Hfin : forall p x, In p front -> In x p -> is_finite x = true.
Hypothesis Hfinr : forall x, In x ref -> is_finite x = true.
Notation rel := (filter (fun p => weakly_dom p ref) front).
Notation front' := (map (map dR) front).
Notation ref' := (map dR ref).

Lemma rel_vals : filter (fun p => weakly_dom p ref') front' = map (map dR) rel.
Proof. apply filter_map_comm. intros p Hp. symmetry. apply weakly_dom_val; eauto. Qed.

Lemma rel_dom p : In p rel -> In p front /\ weakly_dominates (map dR p) ref'.
Proof.
  intros H. apply filter_In in H as [H1 H2]. split; auto. rewrite weakly_dom_val in H2 by eauto.
  apply weakly_dom_spec; auto. rewrite !map_length. auto.
Qed.

Hypothesis Hno : forall p k, In p front -> weakly_dominates (map dR p) ref' -> k < length ref ->
  (Rabs (rnd (B2R (nth k p d0) - B2R (nth k ref d0))) < bpow radix2 1024)%R.

Lemma relevant_double : length (relevant_points front ref) = length rel /\
  forall x, x < length rel -> length (nth x (relevant_points front ref) []) = length ref /\
    forall k, k < length ref -> is_finite (nth k (nth x (relevant_points front ref) []) d0) = true /\
      B2R (nth k (nth x (relevant_points front ref) []) d0) = rnd (B2R (nth k (nth x rel []) d0) - B2R (nth k ref d0)).
Proof.
  unfold relevant_points. destruct (any_nonzero ref) eqn:E.
  - split; [apply map_length|]. intros x Hx. rewrite (nth_map_default (fun p => vsub p ref) rel x [] []) by auto.
    destruct (rel_dom (nth x rel []) (nth_In _ _ Hx)) as [H1 H2]. pose proof (Hrows _ H1) as Hl.
    split; [apply vsub_len; auto|]. intros k Hk. rewrite vsub_nth by auto.
    apply dminus_ok; [| |apply Hno; auto].
    + apply (Hfin _ _ H1), nth_In. lia.
    + apply Hfinr, nth_In. auto.
  - split; auto. intros x Hx. destruct (rel_dom (nth x rel []) (nth_In _ _ Hx)) as [H1 H2]. split; auto.
    intros k Hk. split; [apply (Hfin _ _ H1), nth_In; rewrite Hrows; auto|].
    assert (Hz : B2R (nth k ref d0) = 0%R).
    { assert (Hin : In (nth k ref d0) ref) by (apply nth_In; auto). apply neqb_zero; [auto|].
      destruct (neqb (nth k ref d0) nzero) eqn:En; auto. exfalso.
      assert (any_nonzero ref = true); [|congruence]. unfold any_nonzero. apply existsb_exists. exists (nth k ref d0).
      rewrite En. auto. }
    rewrite Hz, Rminus_0_r. symmetry. apply round_generic; [apply valid_rnd_N|apply generic_format_B2R].
Qed.

(** * Perturbed coordinates *)
Lemma hv_scale d s P : (0 < s)%R -> hv d (fun _ => 0%R) (map (fun p : pt => fun k => (s * p k)%R) P) = (s ^ d * hv d (fun _ => 0%R) P)%R.
Proof.
  intros Hs. pose proof (hv_aff d (fun _ => s) (fun _ => 0%R) (fun _ _ => Hs) (fun _ => 0%R) P) as H.
  replace (prodn d (fun _ => s)) with (s ^ d)%R in H.
  - rewrite <- H. unfold aff. replace (fun _ : nat => (s * 0 + 0)%R) with (fun _ : nat => 0%R) by (extensionality k; ring).
    f_equal. apply map_ext. intros p. extensionality k. ring.
  - clear. induction d as [|d IH]; simpl; [auto|]. rewrite <- IH. ring.
Qed.

Variable u : R.
Hypothesis Hu : (0 <= u < 1)%R.
Notation pts := (relevant_points front ref).
Hypothesis Hrel : forall x k, x < length rel -> k < length ref ->
  (Rabs (B2R (nth k (nth x pts []) d0) - (B2R (nth k (nth x rel []) d0) - B2R (nth k ref d0)))
    <= u * Rabs (B2R (nth k (nth x rel []) d0) - B2R (nth k ref d0)))%R.

Lemma hv_exact_shift : forall S0 : list (list R), length S0 = length rel ->
  (forall x k, x < length rel -> k < length ref ->
     nth k (nth x S0 []) 0%R = (B2R (nth k (nth x rel []) d0) - B2R (nth k ref d0))%R) ->
  hv (length ref) (fun _ => 0%R) (map co S0) = HVof front' ref'.
Proof.
  intros S0 HL HS. rewrite map_length.
  transitivity (hv (length ref) (co ref') (map co (map (map dR) rel))).
  - rewrite <- (hv_shift (length ref) (co ref') (fun _ => 0%R) (fun k => - co ref' k)%R (map co (map (map dR) rel))) by (intros; lra).
    apply hv_ext_P. rewrite map_map.
    assert (HF : Forall2 (fun p p' : pt => forall k, k < length ref -> p k = (p' k - co ref' k)%R) (map co S0) (map co (map (map dR) rel))).
    { apply Forall2_map_nth; [rewrite map_length; auto|]. intros x Hx k Hk. unfold co. rewrite HL in Hx. rewrite HS by auto.
      change (@nil R) with (map dR []). rewrite map_nth, !nth_dR. reflexivity. }
    remember (map (map dR) rel) as rl eqn:Er. clear -HF. revert S0 HF.
    induction rl as [|q rl IH]; intros [|p S0] HF; simpl in *; inversion HF as [|? ? ? ? Hpq HF']; subst; constructor; auto.
  - rewrite <- rel_vals. apply hv_filter. intros p Hp Hf.
    assert (Hlp : length p = length ref).
    { apply in_map_iff in Hp as (q & <- & Hq). rewrite map_length. auto. }
    destruct (not_all_ex (length ref) (co p) (co ref')) as [Hle|(k & Hk & Hlt)].
    + exfalso. assert (weakly_dom p ref' = true); [|congruence]. apply weakly_dom_spec; [rewrite map_length; auto|].
      split; [rewrite map_length; auto|]. rewrite Hlp. auto.
    + exists k. split; auto. unfold co in *. lra.
Qed.

Lemma hv_perturb : length pts = length rel ->
  ((1 - u) ^ length ref * HVof front' ref' <= hv (length ref) (fun _ => 0%R) (map co (map (map dR) pts))
     <= (1 + u) ^ length ref * HVof front' ref')%R.
Proof.
  intros HL.
  set (S0 := map (fun p => map (fun k => (B2R (nth k p d0) - B2R (nth k ref d0))%R) (seq 0 (length ref))) rel).
  assert (HS0 : forall x k, x < length rel -> k < length ref ->
     nth k (nth x S0 []) 0%R = (B2R (nth k (nth x rel []) d0) - B2R (nth k ref d0))%R).
  { intros x k Hx Hk. unfold S0. rewrite (nth_map_default _ rel x [] []) by auto.
    rewrite (nth_map_default _ (seq 0 (length ref)) k 0 0%R) by (rewrite seq_length; auto). rewrite seq_nth by auto. reflexivity. }
  assert (HlS : length S0 = length rel) by apply map_length.
  rewrite <- (hv_exact_shift S0 HlS HS0).
  assert (Hneg : forall x k, x < length rel -> k < length ref -> (nth k (nth x S0 []) 0 <= 0)%R).
  { intros x k Hx Hk. rewrite HS0 by auto. destruct (rel_dom (nth x rel []) (nth_In _ _ Hx)) as [H1 [H2 H3]].
    specialize (H3 k). rewrite !nth_dR, H2, map_length in H3. specialize (H3 Hk). lra. }
  assert (HR : forall x k, x < length rel -> k < length ref ->
     ((1 + u) * nth k (nth x S0 []) 0 <= B2R (nth k (nth x pts []) d0) <= (1 - u) * nth k (nth x S0 []) 0)%R).
  { intros x k Hx Hk. specialize (Hrel x k Hx Hk). specialize (Hneg x k Hx Hk). rewrite HS0 in * by auto.
    set (t := (B2R (nth k (nth x rel []) d0) - B2R (nth k ref d0))%R) in *.
    rewrite (Rabs_left1 t) in Hrel by auto. apply Rcomplements.Rabs_le_between in Hrel. lra. }
  split.
  - rewrite <- hv_scale by lra. apply hv_mono. intros p Hp. rewrite map_map in Hp. apply in_map_iff in Hp as (s & <- & Hs).
    apply (In_nth _ _ []) in Hs as (x & Hx & <-). rewrite HlS in Hx.
    exists (co (nth x (map (map dR) pts) [])). split; [apply in_map, nth_In; rewrite map_length; lia|].
    intros k Hk. unfold co. change (@nil R) with (map dR []) at 1. rewrite map_nth, nth_dR. apply HR; auto.
  - rewrite <- hv_scale by lra. apply hv_mono. intros p Hp. apply in_map_iff in Hp as (s & <- & Hs).
    apply (In_nth _ _ []) in Hs as (x & Hx & <-). rewrite map_length, HL in Hx.
    exists (fun k => ((1 + u) * nth k (nth x S0 []) 0)%R). split.
    + rewrite map_map. apply (in_map (fun s => fun k => ((1 + u) * co s k)%R) S0 (nth x S0 [])). apply nth_In. lia.
    + intros k Hk. unfold co. change (@nil R) with (map dR []) at 2. rewrite map_nth, nth_dR. apply HR; auto.
Qed.
End Rel.
