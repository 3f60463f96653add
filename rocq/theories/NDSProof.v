(** Correctness of the non-dominated sorting model. *)
From Coq Require Import List Arith Bool Lia Reals Lra Permutation Sorting.Sorted.
From Verif Require Import Num Exn ListAux NDSModel.
Import ListNotations.
Open Scope nat_scope.

(** * Tables *)
Lemma upd_length {A} i (a : A) l : length (upd i a l) = length l.
Proof. revert i; induction l as [|x l IH]; intros [|i]; simpl; auto. Qed.

Lemma nth_upd_eq {A} i (a d : A) l : i < length l -> nth i (upd i a l) d = a.
Proof. revert i; induction l as [|x l IH]; intros [|i]; simpl; intros Hi; try lia; auto. apply IH; lia. Qed.

Lemma nth_upd_neq {A} i j (a d : A) l : i <> j -> nth j (upd i a l) d = nth j l d.
Proof.
  revert i j; induction l as [|x l IH]; intros [|i] [|j]; simpl; intros Hij; auto; try lia.
Qed.

Lemma raise_to_length F i b : length (raise_to F i b) = length F.
Proof. apply upd_length. Qed.

Lemma fr_raise_eq F i b : i < length F -> fr (raise_to F i b) i = Nat.max (fr F i) b.
Proof. intros Hi. unfold raise_to, fr at 1. rewrite nth_upd_eq; auto. Qed.

Lemma fr_raise_neq F i j b : i <> j -> fr (raise_to F i b) j = fr F j.
Proof. intros Hij. unfold raise_to, fr at 1. rewrite nth_upd_neq; auto. Qed.

Lemma list_max_nat_le l b : list_max_nat l <= b <-> (forall x, In x l -> x <= b).
Proof.
  induction l as [|x l IH]; simpl.
  - split; [tauto|lia].
  - rewrite Nat.max_lub_iff, IH. split.
    + intros [H1 H2] y [->|Hy]; auto.
    + intros Hall; split; [apply Hall; auto | intros y Hy; apply Hall; auto].
Qed.

Lemma list_max_nat_lt l b : l <> [] -> (list_max_nat l < b <-> (forall x, In x l -> x < b)).
Proof.
  intros Hl. destruct b as [|b].
  - split; [lia|]. intros Hall. destruct l as [|x l]; [congruence|].
    specialize (Hall x (or_introl eq_refl)). lia.
  - split.
    + intros Hlt x Hx. assert (Hle : list_max_nat l <= b) by lia.
      rewrite list_max_nat_le in Hle. specialize (Hle x Hx). lia.
    + intros Hall. assert (Hle : list_max_nat l <= b).
      { apply list_max_nat_le. intros x Hx. specialize (Hall x Hx). lia. }
      lia.
Qed.

(** raising [i] by one more than the maximal front of a (possibly empty) list *)
Lemma raise_match F i (le : list nat) :
  i < length F ->
  let F1 := match le with
            | [] => F
            | _ => raise_to F i (S (list_max_nat (map (fr F) le)))
            end in
  length F1 = length F /\ (forall j, j <> i -> fr F1 j = fr F j) /\
  (forall b, fr F1 i <= b <-> fr F i <= b /\ (forall x, In x le -> fr F x < b)).
Proof.
  intros Hi F1. destruct le as [|x le].
  - subst F1. repeat split; auto. + intros ? []. + intros [? _]; auto.
  - set (l := x :: le) in *. change F1 with (raise_to F i (S (list_max_nat (map (fr F) l)))).
    repeat split.
    + apply raise_to_length.
    + intros j Hj. apply fr_raise_neq. auto.
    + rewrite fr_raise_eq in H by auto. lia.
    + rewrite fr_raise_eq in H by auto. intros y Hy.
      assert (Hlt : list_max_nat (map (fr F) l) < b) by lia.
      rewrite list_max_nat_lt in Hlt by discriminate.
      apply Hlt. apply in_map. exact Hy.
    + intros [H1 H2]. rewrite fr_raise_eq by auto.
      assert (Hlt : list_max_nat (map (fr F) l) < b).
      { apply list_max_nat_lt; [discriminate|]. intros y Hy. apply in_map_iff in Hy as (z & <- & Hz). auto. }
      lia.
Qed.

(** * Dominance loop *)
Open Scope R_scope.
Lemma is_dominate_loop_spec (l r : list R) one :
  length l = length r ->
  is_dominate_loop l r one = true <->
  Forall2 Rle l r /\ (one = true \/ exists k, (k < length l)%nat /\ nth k l 0 < nth k r 0).
Proof.
  revert r one; induction l as [|x l IH]; intros [|y r] one; simpl; intros Hlen; try discriminate.
  - split; [intros ->; auto|]. intros [_ [Ho|(k & Hk & _)]]; [exact Ho|lia].
  - injection Hlen as Hlen. destruct (nltb_spec x y) as [Hxy|Hxy].
    + rewrite IH by auto. split.
      * intros [HF _]. split; [constructor; [lra|auto]|]. right. exists 0%nat. simpl. split; [lia|lra].
      * intros [HF _]. inversion HF; subst. auto.
    + destruct (nltb_spec y x) as [Hyx|Hyx].
      * split; [discriminate|]. intros [HF _]. inversion HF; subst. lra.
      * rewrite IH by auto. split.
        -- intros [HF Ho]. split; [constructor; [lra|auto]|]. destruct Ho as [Ho|(k & Hk & Hlt)]; auto.
           right. exists (S k). simpl. split; [lia|auto].
        -- intros [HF Ho]. inversion HF; subst. split; auto. destruct Ho as [Ho|(k & Hk & Hlt)]; auto.
           destruct k as [|k]; simpl in *; [lra|]. right. exists k. split; [lia|auto].
Qed.

Lemma veqb_spec (a b : list R) : veqb a b = true <-> a = b.
Proof.
  revert b; induction a as [|x a IH]; intros [|y b]; simpl; try (split; congruence).
  rewrite andb_true_iff, neqb_true, IH. split; [intros [-> ->]; auto | intros E; injection E; auto].
Qed.

Lemma Forall2_nth_Rle (l r : list R) :
  length l = length r ->
  (Forall2 Rle l r <-> forall k, (k < length l)%nat -> nth k l 0 <= nth k r 0).
Proof.
  revert r; induction l as [|x l IH]; intros [|y r]; simpl; intros Hlen; try discriminate.
  - split; [intros _ k Hk; lia | constructor].
  - injection Hlen as Hlen. split.
    + intros HF. inversion HF; subst. intros [|k] Hk; auto. apply (proj1 (IH r Hlen)); auto. lia.
    + intros Hall. constructor; [apply (Hall 0%nat); lia|]. apply IH; auto.
      intros k Hk. apply (Hall (S k)); lia.
Qed.

Lemma dom_or_eq (l r : list R) :
  length l = length r ->
  (is_dominate_loop l r false || veqb l r = true <-> forall k, (k < length l)%nat -> nth k l 0 <= nth k r 0).
Proof.
  intros Hlen. rewrite orb_true_iff, is_dominate_loop_spec, veqb_spec by auto.
  rewrite <- (Forall2_nth_Rle l r Hlen). split.
  - intros [[HF _]| ->]; auto. clear. induction r; constructor; auto. lra.
  - intros HF.
    assert (Hd : l = r \/ exists k, (k < length l)%nat /\ nth k l 0 < nth k r 0).
    { clear Hlen. induction HF as [|x y l r Hxy HF IH]; [left; auto|].
      destruct (Rle_lt_or_eq_dec _ _ Hxy) as [Hlt| ->].
      - right. exists 0%nat. simpl. split; [lia|auto].
      - destruct IH as [->|(k & Hk & Hlt)]; [left; auto|]. right. exists (S k). simpl. split; [lia|auto]. }
    destruct Hd as [->|Hd]; auto.
Qed.

(** * Sorting numbers, median *)
Lemma insert_num_perm (x : R) l : Permutation (x :: l) (insert_num x l).
Proof.
  induction l as [|y l IH]; simpl; auto. destruct (nleb x y); auto.
  rewrite perm_swap. constructor. exact IH.
Qed.
Lemma sort_num_perm (l : list R) : Permutation l (sort_num l).
Proof. induction l as [|x l IH]; simpl; auto. rewrite <- insert_num_perm. constructor. exact IH. Qed.

Lemma median_low_In (l : list R) : l <> [] -> In (median_low l) l.
Proof.
  intros Hl. unfold median_low. apply (Permutation_in _ (Permutation_sym (sort_num_perm l))).
  apply nth_In. rewrite <- (Permutation_length (sort_num_perm l)).
  destruct l as [|x l]; [congruence|]. simpl length.
  apply Nat.div_lt_upper_bound; lia.
Qed.

Lemma dedup_In (l : list R) x : In x (dedup l) <-> In x l.
Proof.
  induction l as [|y l IH]; simpl; [tauto|].
  destruct (existsb (neqb y) l) eqn:E; simpl; rewrite IH; [|tauto].
  split; [auto|]. intros [->|Hx]; auto. apply existsb_exists in E as (z & Hz & Ez).
  apply neqb_true in Ez. subst. exact Hz.
Qed.

Lemma fold_nmin_spec (l : list R) a :
  (fold_left nmin l a <= a) /\ (forall x, In x l -> fold_left nmin l a <= x) /\
  (In (fold_left nmin l a) (a :: l)).
Proof.
  revert a; induction l as [|y l IH]; intros a; simpl.
  - repeat split; auto; try lra. tauto.
  - destruct (IH (nmin a y)) as (H1 & H2 & H3). rewrite nmin_Rmin in *.
    pose proof (Rmin_l a y). pose proof (Rmin_r a y). repeat split.
    + lra.
    + intros x [->|Hx]; auto. lra.
    + destruct H3 as [H3|H3]; auto. rewrite <- H3.
      unfold Rmin. destruct (Rle_dec a y); auto.
Qed.
Lemma fold_nmax_spec (l : list R) a :
  (a <= fold_left nmax l a) /\ (forall x, In x l -> x <= fold_left nmax l a) /\
  (In (fold_left nmax l a) (a :: l)).
Proof.
  revert a; induction l as [|y l IH]; intros a; simpl.
  - repeat split; auto; try lra. tauto.
  - destruct (IH (nmax a y)) as (H1 & H2 & H3). rewrite nmax_Rmax in *.
    pose proof (Rmax_l a y). pose proof (Rmax_r a y). repeat split.
    + lra.
    + intros x [->|Hx]; auto. lra.
    + destruct H3 as [H3|H3]; auto. rewrite <- H3.
      unfold Rmax. destruct (Rle_dec a y); auto.
Qed.
Lemma list_min_le (l : list R) x : In x l -> list_min l <= x.
Proof.
  destruct l as [|y l]; [intros []|]. intros Hin. unfold list_min.
  destruct (fold_nmin_spec l y) as (H1 & H2 & _). destruct Hin as [->|Hin]; auto.
Qed.
Lemma list_max_ge (l : list R) x : In x l -> x <= list_max l.
Proof.
  destruct l as [|y l]; [intros []|]. intros Hin. unfold list_max.
  destruct (fold_nmax_spec l y) as (H1 & H2 & _). destruct Hin as [->|Hin]; auto.
Qed.
Open Scope nat_scope.

(** * Merge *)
Lemma merge_nil_l b : merge [] b = b.
Proof. destruct b; reflexivity. Qed.
Lemma merge_nil_r a : merge a [] = a.
Proof. destruct a; reflexivity. Qed.
Lemma merge_cons x a y b :
  merge (x :: a) (y :: b) = if Nat.ltb x y then x :: merge a (y :: b) else y :: merge (x :: a) b.
Proof. reflexivity. Qed.
Lemma merge_perm a b : Permutation (a ++ b) (merge a b).
Proof.
  revert b; induction a as [|x a IHa]; intros b; [rewrite merge_nil_l; auto|].
  induction b as [|y b IHb]; [rewrite merge_nil_r, app_nil_r; auto|].
  rewrite merge_cons. destruct (Nat.ltb x y).
  - simpl. constructor. apply IHa.
  - rewrite <- IHb. rewrite <- Permutation_middle. auto.
Qed.
Lemma merge_In a b x : In x (merge a b) <-> In x a \/ In x b.
Proof.
  rewrite <- in_app_iff. split; apply Permutation_in; [symmetry|]; apply merge_perm.
Qed.
Lemma merge_length a b : length (merge a b) = length a + length b.
Proof. rewrite <- (Permutation_length (merge_perm a b)), app_length. reflexivity. Qed.

Lemma merge_sorted a b :
  StronglySorted lt a -> StronglySorted lt b -> (forall x, In x a -> ~ In x b) ->
  StronglySorted lt (merge a b).
Proof.
  revert b; induction a as [|x a IHa]; intros b Ha Hb Hd; [rewrite merge_nil_l; auto|].
  induction b as [|y b IHb]; [rewrite merge_nil_r; auto|].
  rewrite merge_cons. inversion Ha as [|? ? Ha' Hxa]; subst. inversion Hb as [|? ? Hb' Hyb]; subst.
  rewrite Forall_forall in Hxa, Hyb.
  destruct (Nat.ltb_spec x y).
  - constructor; [apply IHa; auto|].
    + intros z Hz. apply Hd. right; auto.
    + rewrite Forall_forall. intros z Hz. apply merge_In in Hz as [Hz|[<-|Hz]]; auto.
      specialize (Hyb _ Hz). lia.
  - assert (x <> y) by (intros ->; apply (Hd y); left; auto).
    constructor; [apply IHb; auto|].
    + intros z Hz Hz'. apply (Hd z Hz). right; auto.
    + rewrite Forall_forall. intros z Hz. apply merge_In in Hz as [[<-|Hz]|Hz]; auto; try lia.
      specialize (Hxa _ Hz). lia.
Qed.

(** * The recursion, for a fixed lexicographically sorted table *)
Section Table.
Variable Ob : list (list R).
Variable m : nat.
Notation n := (length Ob).
Notation v i k := (val Ob i k).

Hypothesis Hlen : forall i, i < n -> length (nth i Ob []) = m.
Hypothesis Hlex : forall i j, i < j -> j < n ->
  exists k, k < m /\ (forall l, l < k -> v i l = v j l) /\ (v i k < v j k)%R.

Definition leqc (c j i : nat) : Prop := forall k, k < c -> (v j k <= v i k)%R.

Lemma nth_pre i c k : i < n -> c <= m -> k < c -> nth k (pre Ob i c) 0%R = v i k.
Proof.
  intros Hi Hc Hk. unfold pre, val.
  assert (Hl : length (nth i Ob []) = m) by auto.
  rewrite <- (firstn_skipn c (nth i Ob [])) at 2.
  rewrite app_nth1; auto. rewrite firstn_length. lia.
Qed.
Lemma length_pre i c : i < n -> c <= m -> length (pre Ob i c) = c.
Proof. intros Hi Hc. unfold pre. rewrite firstn_length, Hlen; auto. lia. Qed.

Lemma dom_or_eq_leqc i j c : i < n -> j < n -> c <= m ->
  (is_dominate_loop (pre Ob j c) (pre Ob i c) false || veqb (pre Ob j c) (pre Ob i c) = true
   <-> leqc c j i).
Proof.
  intros Hi Hj Hc. rewrite dom_or_eq by (rewrite !length_pre; auto).
  rewrite length_pre by auto. unfold leqc. split; intros Hall k Hk.
  - specialize (Hall k Hk). rewrite !nth_pre in Hall by auto. exact Hall.
  - rewrite !nth_pre by auto. auto.
Qed.

Lemma leqc_S c j i : c >= 1 -> (leqc c j i <-> leqc (c - 1) j i /\ (v j (c - 1) <= v i (c - 1))%R).
Proof.
  intros Hc. unfold leqc. split.
  - intros Hall. split; [intros k Hk; apply Hall; lia | apply Hall; lia].
  - intros [Hall Hl] k Hk. destruct (Nat.eq_dec k (c - 1)) as [->|]; auto. apply Hall. lia.
Qed.

(** Index order of two points equal from coordinate [c] on. *)
Lemma leqc_index c i j : i < n -> j < n -> i <> j ->
  (forall k, c <= k -> k < m -> v i k = v j k) -> leqc c j i -> j < i.
Proof.
  intros Hi Hj Hne Heq Hle. destruct (Nat.lt_ge_cases j i) as [|Hge]; auto. exfalso.
  destruct (Hlex i j) as (k & Hk & Hbelow & Hlt); [lia|auto|].
  destruct (Nat.lt_ge_cases k c).
  - specialize (Hle k H). lra.
  - rewrite (Heq k) in Hlt by auto. lra.
Qed.

Definition Bspec (c : nat) (F : list nat) (L H : list nat) (F' : list nat) : Prop :=
  length F' = length F /\
  (forall i, ~ In i H -> fr F' i = fr F i) /\
  (forall i, In i H -> forall b,
     fr F' i <= b <-> fr F i <= b /\ (forall j, In j L -> leqc c j i -> fr F j < b)).

Definition Aspec (c : nat) (F : list nat) (S : list nat) (F' : list nat) : Prop :=
  length F' = length F /\
  (forall i, ~ In i S -> fr F' i = fr F i) /\
  (forall i, In i S -> forall b,
     fr F' i <= b <-> fr F i <= b /\ (forall j, In j S -> j <> i -> leqc c j i -> fr F' j < b)).

(** ** pairwise *)
Lemma pairwise_inner F comp i c :
  length F = n -> i < n -> (forall j, In j comp -> j < n) -> c <= m -> ~ In i comp ->
  let F' := fold_left (fun F j =>
      if is_dominate_loop (pre Ob j c) (pre Ob i c) false || veqb (pre Ob j c) (pre Ob i c)
      then raise_to F i (S (fr F j)) else F) comp F in
  length F' = n /\ (forall j, j <> i -> fr F' j = fr F j) /\
  (forall b, fr F' i <= b <-> fr F i <= b /\ (forall j, In j comp -> leqc c j i -> fr F j < b)).
Proof.
  intros HF Hi. revert F HF; induction comp as [|a comp IH]; intros F HF Hcomp Hc Hni; simpl.
  - repeat split; auto. + intros ? []. + intros [? _]; auto.
  - set (F1 := if is_dominate_loop (pre Ob a c) (pre Ob i c) false || veqb (pre Ob a c) (pre Ob i c)
               then raise_to F i (S (fr F a)) else F).
    assert (Ha : a < n) by (apply Hcomp; left; auto).
    assert (Hai : a <> i) by (intros ->; apply Hni; left; auto).
    assert (HF1 : length F1 = n).
    { unfold F1. destruct (_ || _); auto. rewrite raise_to_length. auto. }
    assert (Hout : forall j, j <> i -> fr F1 j = fr F j).
    { intros j Hj. unfold F1. destruct (_ || _); auto. apply fr_raise_neq. auto. }
    assert (Hin : forall b, fr F1 i <= b <-> fr F i <= b /\ (leqc c a i -> fr F a < b)).
    { intros b. unfold F1. pose proof (dom_or_eq_leqc i a c Hi Ha Hc) as Hd.
      destruct (is_dominate_loop _ _ _ || veqb _ _).
      - rewrite fr_raise_eq by lia. split.
        + intros Hb. split; [lia|intros _; lia].
        + intros [H1 H2]. specialize (H2 (proj1 Hd eq_refl)). lia.
      - split; [|tauto]. intros Hb. split; auto. intros Hl. apply Hd in Hl. discriminate. }
    destruct (IH F1 HF1) as (H1 & H2 & H3).
    { intros j Hj; apply Hcomp; right; auto. } { auto. } { intros Hx; apply Hni; right; auto. }
    repeat split; auto.
    + intros j Hj. rewrite H2 by auto. auto.
    + apply H3 in H. apply Hin. tauto.
    + intros j [<-|Hj] Hl.
      * apply H3 in H as [H _]. apply Hin in H. tauto.
      * apply H3 in H as [_ H]. specialize (H j Hj Hl). rewrite Hout in H; auto.
        intros ->. apply Hni. right. auto.
    + intros [Hb Hall]. apply H3. split.
      * apply Hin. split; auto.
      * intros j Hj Hl. rewrite Hout; auto. intros ->. apply Hni. right. auto.
Qed.

Lemma pairwise_b_spec F comp asg c :
  length F = n -> (forall i, In i comp -> i < n) -> (forall i, In i asg -> i < n) ->
  NoDup asg -> (forall i, In i comp -> ~ In i asg) -> c <= m ->
  Bspec c F comp asg (pairwise_b Ob F comp asg c).
Proof.
  intros HF Hcomp. unfold pairwise_b. revert F HF.
  induction asg as [|i asg IH]; intros F HF Hasg Hnd Hdis Hc; simpl.
  - repeat split; auto; simpl in *; tauto.
  - inversion Hnd as [|? ? Hi Hnd']; subst.
    assert (Hin : i < n) by (apply Hasg; left; auto).
    assert (Hic : ~ In i comp) by (intros Hx; apply (Hdis i Hx); left; auto).
    destruct (pairwise_inner F comp i c HF Hin Hcomp Hc Hic) as (H1 & H2 & H3).
    match goal with |- Bspec _ _ _ _ (fold_left _ _ ?X) => set (F1 := X) in * end.
    destruct (IH F1 H1) as (K1 & K2 & K3); auto.
    { intros j Hj; apply Hasg; right; auto. } { intros j Hj Hx; apply (Hdis j Hj); right; auto. }
    match goal with |- Bspec _ _ _ _ ?X => set (F2 := X) in * end.
    split; [lia|]. split.
    + intros j Hj. rewrite K2 by (intros Hx; apply Hj; right; auto).
      apply H2. intros ->. apply Hj. left; auto.
    + intros j [<-|Hj] b.
      * rewrite K2 by auto. apply H3.
      * rewrite K3 by auto. assert (Hji : j <> i) by (intros ->; auto).
        rewrite H2 by auto. apply and_iff_compat_l. split; intros Hall k Hk Hl.
        -- rewrite <- (H2 k); [auto|]. intros ->. auto.
        -- rewrite (H2 k); [auto|]. intros ->. auto.
Qed.

(** ** sweeps *)
Definition le2 (x j : nat) : Prop :=
  (v x 0 < v j 0)%R \/ (v x 0 = v j 0 /\ (v x 1 <= v j 1)%R).

Hypothesis Hm : 2 <= m.

Lemma pre2 i : i < n -> pre Ob i 2 = [v i 0; v i 1].
Proof.
  intros Hi. apply (list_eq_nth 0%R).
  - rewrite length_pre; auto.
  - rewrite length_pre by auto. intros k Hk. rewrite nth_pre by auto.
    destruct k as [|[|k]]; try lia; reflexivity.
Qed.

Lemma lexleb_le2 x j : x < n -> j < n -> (lexleb (pre Ob x 2) (pre Ob j 2) = true <-> le2 x j).
Proof.
  intros Hx Hj. rewrite !pre2 by auto. unfold le2. simpl.
  destruct (neqb_spec (v x 0) (v j 0)) as [E|E].
  - destruct (neqb_spec (v x 1) (v j 1)) as [E1|E1].
    + split; [intros _; right; lra|auto].
    + rewrite nltb_true. split; [intros; right; lra|intros [?|[? ?]]; lra].
  - rewrite nltb_true. split; [intros; left; lra|intros [?|[? ?]]; lra].
Qed.

Lemma index_le2 x j : x < n -> j < n -> x <= j -> le2 x j.
Proof.
  intros Hx Hj Hle. destruct (Nat.eq_dec x j) as [->|Hne]; [right; lra|].
  destruct (Hlex x j) as (k & Hk & Hb & Hlt); [lia|auto|].
  unfold le2. destruct k as [|[|k]].
  - left; auto.
  - right. split; [apply Hb; lia|lra].
  - right. split; [apply Hb; lia|]. rewrite (Hb 1) by lia. lra.
Qed.

Lemma le2_trans x y z : le2 x y -> le2 y z -> le2 x z.
Proof. unfold le2. intros [?|[? ?]] [?|[? ?]]; try (left; lra); right; lra. Qed.

Lemma leqc2_le2 x j : leqc 2 x j <-> le2 x j /\ (v x 1 <= v j 1)%R.
Proof.
  unfold leqc, le2. split.
  - intros Hall. pose proof (Hall 0 ltac:(lia)). pose proof (Hall 1 ltac:(lia)).
    split; auto. destruct (Req_dec (v x 0) (v j 0)); [right; lra|left; lra].
  - intros [Hle H1] k Hk. destruct k as [|[|k]]; try lia; auto. destruct Hle as [?|[? ?]]; lra.
Qed.

(** [init] represents the set [A] of indices seen so far: per front it keeps an
    element with the smallest second objective. *)
Definition Rep (F : list nat) (A init : list nat) : Prop :=
  (forall x, In x init -> In x A) /\
  (forall j, In j A -> exists x, In x init /\ fr F x = fr F j /\ (v x 1 <= v j 1)%R).

Lemma Rep_bound F A init (t : R) b : Rep F A init ->
  (forall x, In x (filter (fun x => nleb (v x 1) t) init) -> fr F x < b) <->
  (forall j, In j A -> (v j 1 <= t)%R -> fr F j < b).
Proof.
  intros [R1 R2]. split; intros Hall.
  - intros j Hj Hjt. destruct (R2 j Hj) as (x & Hx & Hf & Hv). rewrite <- Hf. apply Hall.
    apply filter_In. split; auto. apply nleb_true. lra.
  - intros x Hx. apply filter_In in Hx as [Hx Hv]. apply nleb_true in Hv. auto.
Qed.

Lemma Rep_ext F F' A init : (forall x, In x A -> fr F' x = fr F x) -> Rep F A init -> Rep F' A init.
Proof.
  intros He [R1 R2]. split; auto. intros j Hj. destruct (R2 j Hj) as (x & Hx & Hf & Hv).
  exists x. repeat split; auto. rewrite !He; auto.
Qed.

Lemma sweep_b_absorb_spec F j comp init A comp1 init1 :
  j < n -> (forall x, In x comp -> x < n) ->
  Rep F A init -> sweep_b_absorb Ob F j comp init = (comp1, init1) ->
  exists B, comp = B ++ comp1 /\ Rep F (A ++ B) init1 /\ (forall x, In x B -> le2 x j) /\
            match comp1 with [] => True | x :: _ => ~ le2 x j end.
Proof.
  intros Hj. revert init A; induction comp as [|i comp IH]; intros init A Hc HR E.
  - simpl in E. injection E as <- <-. exists []. split; [auto|]. split; [rewrite app_nil_r; exact HR|]. split; [intros ? []|auto].
  - cbn [sweep_b_absorb] in E.
    assert (Hi : i < n) by (apply Hc; left; auto).
    pose proof (lexleb_le2 i j Hi Hj) as Hl. destruct (lexleb (pre Ob i 2) (pre Ob j 2)).
    + set (less := filter _ init) in E.
      set (init' := match less with [] => _ | _ => _ end) in E.
      assert (HR' : Rep F (A ++ [i]) init').
      { destruct HR as [R1 R2]. unfold init'. destruct less as [|y less'] eqn:El.
        - split.
          + intros x [<-|Hx]; [apply in_or_app; right; left; auto|].
            apply filter_In in Hx as [Hx _]. apply in_or_app; left; auto.
          + intros k Hk. apply in_app_or in Hk as [Hk|[<-|[]]].
            * destruct (R2 k Hk) as (x & Hx & Hf & Hv).
              destruct (Nat.eq_dec (fr F x) (fr F i)) as [Eq|Ne].
              -- exists i. split; [left; auto|]. split; [congruence|].
                 destruct (Rle_lt_dec (v i 1) (v k 1)) as [|Hlt]; auto. exfalso.
                 assert (Hin : In x less). { unfold less. apply filter_In. split; auto.
                   rewrite andb_true_iff. split; [apply Nat.eqb_eq; auto|apply nltb_true; lra]. }
                 rewrite El in Hin. destruct Hin.
              -- exists x. split; auto. right. apply filter_In. split; auto.
                 apply negb_true_iff, Nat.eqb_neq. auto.
            * exists i. split; [left; auto|]. split; [auto|lra].
        - split.
          + intros x Hx. apply in_or_app; left; auto.
          + intros k Hk. apply in_app_or in Hk as [Hk|[<-|[]]]; auto.
            assert (Hin : In y less) by (rewrite El; left; auto).
            unfold less in Hin. apply filter_In in Hin as [Hy Hyc].
            rewrite andb_true_iff in Hyc. destruct Hyc as [Hf Hv].
            apply Nat.eqb_eq in Hf. apply nltb_true in Hv. exists y. repeat split; auto. lra. }
      destruct (IH init' (A ++ [i])) as (B & EB & HRB & HB & Hnext); auto.
      { intros x Hx; apply Hc; right; auto. }
      exists (i :: B). repeat split.
      * simpl. rewrite EB. reflexivity.
      * rewrite <- app_assoc in HRB. apply HRB.
      * rewrite <- app_assoc in HRB. apply HRB.
      * intros x [<-|Hx]; auto. apply Hl; auto.
      * exact Hnext.
    + injection E as <- <-. exists []. split; [auto|]. split; [rewrite app_nil_r; exact HR|]. split; [intros ? []|].
      intros Hx. apply Hl in Hx. discriminate.
Qed.

Lemma sweep_b_loop_spec F0 A comp init asg F :
  length F = n ->
  StronglySorted lt (A ++ comp) -> StronglySorted lt asg ->
  (forall x, In x (A ++ comp) -> x < n) -> (forall x, In x asg -> x < n) ->
  (forall x, In x (A ++ comp) -> ~ In x asg) ->
  (forall x, In x (A ++ comp) -> fr F x = fr F0 x) ->
  (forall x, In x A -> forall j, In j asg -> le2 x j) ->
  Rep F A init ->
  Bspec 2 F (A ++ comp) asg (sweep_b_loop Ob F comp init asg).
Proof.
  revert A comp init F. induction asg as [|j asg IH]; intros A comp init F HF HsL HsH HL HH Hdis HF0 HA HR.
  - simpl. repeat split; auto; simpl in *; tauto.
  - cbn [sweep_b_loop].
    destruct (sweep_b_absorb Ob F j comp init) as [comp1 init1] eqn:E.
    assert (Hj : j < n) by (apply HH; left; auto).
    destruct (sweep_b_absorb_spec F j comp init A comp1 init1 Hj) as (B & -> & HR1 & HB & Hnext); auto.
    { intros x Hx; apply HL, in_or_app; auto. }
    rewrite app_assoc in *. set (A' := A ++ B) in *.
    assert (HA' : forall x, In x A' -> le2 x j).
    { intros x Hx. apply in_app_or in Hx as [Hx|Hx]; auto. apply HA; auto. left; auto. }
    assert (Hrest : forall x, In x comp1 -> ~ le2 x j).
    { destruct comp1 as [|y comp1]; [intros ? []|]. intros x [<-|Hx]; auto. intros Hle. apply Hnext.
      apply StronglySorted_app_inv in HsL as (_ & HsL & _). inversion HsL as [|? ? _ Hy]; subst.
      rewrite Forall_forall in Hy. specialize (Hy x Hx).
      apply (le2_trans y x j); auto. apply index_le2; [apply HL, in_or_app; right; left; auto| |lia].
      apply HL, in_or_app; right; right; auto. }
    set (le := filter (fun x => nleb (v x 1) (v j 1)) init1).
    destruct (raise_match F j le) as (L1 & L2 & L3); [lia|].
    set (F1 := match le with [] => _ | _ => _ end) in *.
    inversion HsH as [|? ? HsH' HjH]; subst. rewrite Forall_forall in HjH.
    assert (HneL : forall x, In x (A' ++ comp1) -> x <> j).
    { intros x Hx ->. apply (Hdis j Hx). left; auto. }
    assert (Hsame : forall x, In x (A' ++ comp1) -> fr F1 x = fr F x) by (intros; apply L2, HneL; auto).
    assert (Hj3 : forall b, fr F1 j <= b <->
       fr F j <= b /\ (forall x, In x (A' ++ comp1) -> leqc 2 x j -> fr F x < b)).
    { intros b. rewrite L3. apply and_iff_compat_l. unfold le. rewrite (Rep_bound F A' init1) by auto.
      split; intros Hall x Hx.
      - intros Hl. apply leqc2_le2 in Hl as [Hl Hv]. apply in_app_or in Hx as [Hx|Hx]; auto.
        exfalso. apply (Hrest x); auto.
      - intros Hv. apply Hall; [apply in_or_app; auto|]. apply leqc2_le2. auto. }
    destruct (IH A' comp1 init1 F1) as (K1 & K2 & K3); auto.
    { lia. } { intros x Hx; apply HH; right; auto. } { intros x Hx Hx'; apply (Hdis x Hx); right; auto. }
    { intros x Hx. rewrite Hsame; auto. }
    { intros x Hx k Hk. apply (le2_trans x j k); auto. apply index_le2; auto; [apply HH; right; auto|].
      specialize (HjH k Hk). lia. }
    { apply (Rep_ext F); auto. intros x Hx. apply Hsame, in_or_app; auto. }
    set (F2 := sweep_b_loop Ob F1 comp1 init1 asg) in *.
    assert (Hjn : ~ In j asg) by (intros Hx; specialize (HjH j Hx); lia).
    split; [lia|]. split.
    + intros i Hi. rewrite K2 by (intros Hx; apply Hi; right; auto). apply L2. intros ->. apply Hi; left; auto.
    + intros i [<-|Hi] b.
      * rewrite K2 by auto. apply Hj3.
      * rewrite K3 by auto. rewrite (L2 i) by (intros ->; auto). apply and_iff_compat_l.
        split; intros Hall x Hx Hl; [rewrite <- Hsame|rewrite Hsame]; auto.
Qed.

Lemma sweep_b_spec F comp asg :
  length F = n -> StronglySorted lt comp -> StronglySorted lt asg ->
  (forall x, In x comp -> x < n) -> (forall x, In x asg -> x < n) ->
  (forall x, In x comp -> ~ In x asg) ->
  Bspec 2 F comp asg (sweep_b Ob F comp asg).
Proof.
  intros. unfold sweep_b. apply (sweep_b_loop_spec F [] comp []); simpl; auto; try tauto.
  split; simpl; tauto.
Qed.

Lemma sweep_a_loop_spec D ix init F :
  length F = n -> StronglySorted lt (D ++ ix) -> (forall x, In x (D ++ ix) -> x < n) ->
  (forall i j, In i (D ++ ix) -> In j (D ++ ix) -> forall k, 2 <= k -> k < m -> v i k = v j k) ->
  Rep F D init ->
  let F' := sweep_a_loop Ob F init ix in
  length F' = n /\ (forall i, ~ In i ix -> fr F' i = fr F i) /\
  (forall i, In i ix -> forall b, fr F' i <= b <-> fr F i <= b /\
     (forall j, In j (D ++ ix) -> j <> i -> leqc 2 j i -> fr F' j < b)).
Proof.
  revert D init F. induction ix as [|i ix IH]; intros D init F HF Hs Hn Heq HR.
  - simpl. repeat split; auto; simpl in *; tauto.
  - cbn [sweep_a_loop].
    set (le := filter (fun x => nleb (v x 1) (v i 1)) init).
    assert (Hi : i < n) by (apply Hn, in_or_app; right; left; auto).
    destruct (raise_match F i le) as (L1 & L2 & L3); [lia|].
    set (F1 := match le with [] => _ | _ => _ end) in *.
    destruct (StronglySorted_app_inv _ _ _ Hs) as (HsD & HsI & HDI).
    inversion HsI as [|? ? HsI' Hix]; subst. rewrite Forall_forall in Hix.
    assert (HDne : forall x, In x D -> x < i) by (intros x Hx; apply HDI; [auto|left; auto]).
    assert (HFD : forall x, In x D -> fr F1 x = fr F x).
    { intros x Hx. apply L2. specialize (HDne x Hx). lia. }
    set (init1 := i :: filter (fun x => negb (Nat.eqb (fr F1 x) (fr F1 i))) init).
    assert (HR1 : Rep F1 (D ++ [i]) init1).
    { destruct HR as [R1 R2]. split.
      - intros x [<-|Hx]; [apply in_or_app; right; left; auto|].
        apply filter_In in Hx as [Hx _]. apply in_or_app; left; auto.
      - intros j Hj. apply in_app_or in Hj as [Hj|[<-|[]]].
        + destruct (R2 j Hj) as (x & Hx & Hf & Hv).
          destruct (Nat.eq_dec (fr F1 x) (fr F1 i)) as [Eq|Ne].
          * exists i. split; [left; auto|]. split; [rewrite <- Eq, !HFD; auto|].
            destruct (Rle_lt_dec (v x 1) (v i 1)) as [Hxi|Hxi]; [|lra]. exfalso.
            assert (Hlt : fr F x < fr F1 i).
            { apply (proj1 (L3 (fr F1 i)) (le_n _)). apply filter_In. split; auto. apply nleb_true. auto. }
            rewrite <- Eq, HFD in Hlt by auto. lia.
          * exists x. split; [right; apply filter_In; split; auto; apply negb_true_iff, Nat.eqb_neq; auto|].
            split; [rewrite !HFD; auto|auto].
        + exists i. split; [left; auto|]. split; [auto|lra]. }
    assert (EqL : (D ++ [i]) ++ ix = D ++ i :: ix) by (rewrite <- app_assoc; reflexivity).
    destruct (IH (D ++ [i]) init1 F1) as (K1 & K2 & K3); auto; try (rewrite EqL; auto). { lia. }
    set (F2 := sweep_a_loop Ob F1 init1 ix) in *. rewrite EqL in K3.
    assert (Hii : ~ In i ix) by (intros Hx; specialize (Hix i Hx); lia).
    split; [auto|]. split.
    + intros k Hk. rewrite K2 by (intros Hx; apply Hk; right; auto). apply L2. intros ->. apply Hk; left; auto.
    + intros k [<-|Hk] b.
      * rewrite K2 by auto. rewrite L3. apply and_iff_compat_l. unfold le. rewrite (Rep_bound F D init) by auto.
        assert (HF2D : forall x, In x D -> fr F2 x = fr F x).
        { intros x Hx. rewrite K2; auto. intros Hx'. specialize (HDne x Hx). specialize (Hix x Hx'). lia. }
        split; intros Hall x Hx.
        -- intros Hne Hl. assert (Hxi : x < i).
           { apply (leqc_index 2 i x); auto. intros k Hk1 Hk2. apply Heq; auto. apply in_or_app; right; left; auto. }
           assert (HxD : In x D).
           { apply in_app_or in Hx as [Hx|[Hx|Hx]]; auto; [lia|]. specialize (Hix x Hx). lia. }
           rewrite HF2D by auto. apply Hall; auto.
        -- intros Hv. rewrite <- HF2D by auto. specialize (HDne x Hx). apply Hall; [apply in_or_app; auto|lia|].
           apply leqc2_le2. split; auto. apply index_le2; auto; [apply Hn, in_or_app; auto|lia].
      * rewrite K3 by auto. rewrite L2 by (intros ->; auto). reflexivity.
Qed.

Lemma sweep_a_spec F ix :
  length F = n -> StronglySorted lt ix -> (forall x, In x ix -> x < n) ->
  (forall i j, In i ix -> In j ix -> forall k, 2 <= k -> k < m -> v i k = v j k) ->
  Aspec 2 F ix (sweep_a Ob F ix).
Proof.
  intros HF Hs Hn Heq. destruct ix as [|i ix]; [repeat split; auto; simpl in *; tauto|].
  unfold sweep_a. destruct (sweep_a_loop_spec [i] ix [i] F) as (H1 & H2 & H3); auto.
  { split; [simpl; tauto|]. intros j [<-|[]]. exists i. split; [left; auto|]. split; [auto|lra]. }
  inversion Hs as [|? ? Hs' Hi]; subst. rewrite Forall_forall in Hi.
  assert (Hii : ~ In i ix) by (intros Hx; specialize (Hi i Hx); lia).
  split; [lia|]. split.
  - intros k Hk. apply H2. intros Hx; apply Hk; right; auto.
  - intros k [<-|Hk] b.
    + rewrite (H2 i) by auto. split; [|tauto]. intros Hb. split; auto.
      intros j Hj Hne Hl. exfalso.
      assert (j < i). { apply (leqc_index 2 i j); auto; [apply Hn; left; auto|]. intros k Hk1 Hk2. apply Heq; auto. left; auto. }
      destruct Hj as [Hj|Hj]; [lia|]. specialize (Hi j Hj). lia.
    + apply (H3 k Hk b).
Qed.

(** ** split_by *)
Lemma split_by_spec ix t k l e g :
  split_by Ob ix t k = (l, e, g) ->
  (forall i, In i l <-> In i ix /\ (v i k < t)%R) /\
  (forall i, In i e <-> In i ix /\ v i k = t) /\
  (forall i, In i g <-> In i ix /\ (t < v i k)%R) /\
  (StronglySorted lt ix -> StronglySorted lt l /\ StronglySorted lt e /\ StronglySorted lt g) /\
  length l <= length ix /\ length e <= length ix /\ length g <= length ix /\
  ((exists i, In i ix /\ v i k = t) -> length l < length ix /\ length g < length ix).
Proof.
  unfold split_by. intros E. injection E as <- <- <-.
  split; [intros i; rewrite filter_In, nltb_true; reflexivity|].
  split; [intros i; rewrite filter_In, andb_true_iff, !negb_true_iff, !nltb_false;
          split; intros [? ?]; split; auto; lra|].
  split; [intros i; rewrite filter_In, andb_true_iff, negb_true_iff, nltb_false, nltb_true;
          split; intros [? ?]; split; auto; lra|].
  split; [intros Hs; repeat split; apply StronglySorted_filter; auto|].
  split; [apply filter_length_le|]. split; [apply filter_length_le|]. split; [apply filter_length_le|].
  intros (x & Hx & Hv). split.
  - apply filter_length_lt with (x := x); auto. apply nltb_false. lra.
  - apply filter_length_lt with (x := x); auto. apply andb_false_iff. right. apply nltb_false. lra.
Qed.

Lemma split_by_length ix t k l e g :
  split_by Ob ix t k = (l, e, g) -> length l + length e + length g = length ix.
Proof.
  unfold split_by. intros E. injection E as <- <- <-.
  induction ix as [|x q IHl]; simpl; auto.
  destruct (nltb (v x k) t); simpl; [lia|]. destruct (nltb t (v x k)); simpl; lia.
Qed.

Lemma Bspec_nil_l c F H : Bspec c F [] H F.
Proof. repeat split; auto. - intros ? []. - intros [? _]; auto. Qed.
Lemma Bspec_nil_r c F L : Bspec c F L [] F.
Proof. repeat split; auto; simpl in *; tauto. Qed.

(** ** nd_helper_b *)
Lemma nd_helper_b_spec fuel : forall F comp asg c,
  length F = n -> StronglySorted lt comp -> StronglySorted lt asg ->
  (forall x, In x comp -> x < n) -> (forall x, In x asg -> x < n) ->
  (forall x, In x comp -> ~ In x asg) ->
  2 <= c -> c <= m -> c + length comp + length asg < fuel ->
  exists F', nd_helper_b fuel Ob F comp asg c = Ok F' /\ Bspec c F comp asg F'.
Proof.
  induction fuel as [|fuel IH]; intros F comp asg c HF HsL HsH HL HH Hdis Hc2 Hcm Hfuel; [lia|].
  cbn [nd_helper_b].
  destruct comp as [|c0 comp'] eqn:Ec; [exists F; split; auto; apply Bspec_nil_l|].
  destruct asg as [|a0 asg'] eqn:Ea; [exists F; split; auto; apply Bspec_nil_r|].
  rewrite <- Ec, <- Ea in *.
  destruct (Nat.eqb (length comp) 1 || Nat.eqb (length asg) 1).
  { eexists; split; [reflexivity|]. apply pairwise_b_spec; auto. apply StronglySorted_lt_NoDup; auto. }
  destruct (Nat.eqb_spec c 2) as [->|Hc].
  { eexists; split; [reflexivity|]. apply sweep_b_spec; auto. }
  set (k := c - 1). set (vc := map (fun i => v i k) comp). set (va := map (fun i => v i k) asg).
  assert (Hk : k < c) by (unfold k; lia).
  destruct (nleb_spec (list_max vc) (list_min va)) as [Hmm|Hmm].
  - destruct (IH F comp asg k) as (F' & E & (B1 & B2 & B3)); auto; try (unfold k; lia).
    exists F'. split; auto. split; [auto|]. split; [auto|]. intros i Hi b. rewrite B3 by auto.
    apply and_iff_compat_l. split; intros Hall j Hj Hl; apply Hall; auto.
    + apply (leqc_S c) in Hl; [|lia]. apply Hl.
    + apply leqc_S; [lia|]. split; auto. fold k.
      assert (v j k <= list_max vc)%R by (apply list_max_ge, in_map_iff; eauto).
      assert (list_min va <= v i k)%R by (apply list_min_le, in_map_iff; eauto). lra.
  - destruct (nleb_spec (list_min vc) (list_max va)) as [Hmx|Hmx].
    + set (t := median_low (dedup (vc ++ va))).
      assert (Ht : In t (vc ++ va)).
      { apply dedup_In. unfold t. apply median_low_In. intros E0.
        assert (Hin : In (v c0 k) (dedup (vc ++ va))).
        { apply dedup_In, in_or_app. left. unfold vc. rewrite Ec. left; auto. }
        rewrite E0 in Hin. destruct Hin. }
      destruct (split_by Ob comp t k) as [[l1 e1] g1] eqn:E1.
      destruct (split_by Ob asg t k) as [[l2 e2] g2] eqn:E2.
      destruct (split_by_spec _ _ _ _ _ _ E1) as (Il1 & Ie1 & Ig1 & Is1 & Ll1 & Le1 & Lg1 & Lx1).
      destruct (split_by_spec _ _ _ _ _ _ E2) as (Il2 & Ie2 & Ig2 & Is2 & Ll2 & Le2 & Lg2 & Lx2).
      destruct (Is1 HsL) as (S1 & S2 & S3). destruct (Is2 HsH) as (S4 & S5 & S6).
      assert (Hless : length l1 + length l2 < length comp + length asg /\
                      length g1 + length g2 < length comp + length asg).
      { apply in_app_or in Ht as [Ht|Ht]; apply in_map_iff in Ht as (i & Hvi & Hi).
        - destruct Lx1; [eauto|]. lia.
        - destruct Lx2; [eauto|]. lia. }
      assert (Hle1 : length l1 + length e1 <= length comp).
      { pose proof (split_by_length _ _ _ _ _ _ E1). lia. }
      (* step 1 *)
      destruct (IH F l1 l2 c) as (F1 & EF1 & (A1 & A2 & A3)); auto; try lia;
        [firstorder|firstorder|intros x Hx Hx'; apply (Hdis x); firstorder|].
      assert (HL1 : forall x, In x comp -> fr F1 x = fr F x).
      { intros x Hx. apply A2. intros Hx'. apply (Hdis x); firstorder. }
      (* step 2 *)
      destruct (IH F1 l1 e2 k) as (F2 & EF2 & (B1 & B2 & B3)); auto; try (unfold k; lia);
        [firstorder|firstorder|intros x Hx Hx'; apply (Hdis x); firstorder|].
      assert (HL2 : forall x, In x comp -> fr F2 x = fr F x).
      { intros x Hx. rewrite B2; auto. intros Hx'. apply (Hdis x); firstorder. }
      (* step 3 *)
      destruct (IH F2 e1 e2 k) as (F3 & EF3 & (C1 & C2 & C3)); auto; try (unfold k; lia);
        [firstorder|firstorder|intros x Hx Hx'; apply (Hdis x); firstorder|].
      assert (HL3 : forall x, In x comp -> fr F3 x = fr F x).
      { intros x Hx. rewrite C2; auto. intros Hx'. apply (Hdis x); firstorder. }
      (* step 4 *)
      assert (Hmerge : forall x, In x (merge l1 e1) <-> In x comp /\ (v x k <= t)%R).
      { intros x. rewrite merge_In, Il1, Ie1. split; [intros [[? ?]|[? ?]]; split; auto; lra|].
        intros [Hx Hv]. destruct (Req_dec (v x k) t); [right; auto|left; split; auto; lra]. }
      destruct (IH F3 (merge l1 e1) g2 k) as (F4 & EF4 & (D1 & D2 & D3)); auto;
        try (rewrite merge_length; unfold k; lia); try (unfold k; lia).
      { apply merge_sorted; auto. intros x Hx Hx'. apply Il1 in Hx. apply Ie1 in Hx'. lra. }
      { intros x Hx. apply Hmerge in Hx. firstorder. } { firstorder. }
      { intros x Hx Hx'. apply Hmerge in Hx. apply (Hdis x); firstorder. }
      assert (HL4 : forall x, In x comp -> fr F4 x = fr F x).
      { intros x Hx. rewrite D2; auto. intros Hx'. apply (Hdis x); firstorder. }
      (* step 5 *)
      destruct (IH F4 g1 g2 c) as (F5 & EF5 & (G1 & G2 & G3)); auto; try lia;
        [firstorder|firstorder|intros x Hx Hx'; apply (Hdis x); firstorder|].
      exists F5. rewrite EF1. cbn [bind]. rewrite EF2. cbn [bind]. rewrite EF3. cbn [bind].
      rewrite EF4. cbn [bind]. split; [exact EF5|].
      split; [lia|]. split.
      * intros i Hi. rewrite G2, D2, C2, B2, A2; auto; intros Hx; apply Hi; firstorder.
      * intros i Hi b.
        assert (Hlk : forall j, leqc c j i <-> leqc k j i /\ (v j k <= v i k)%R)
          by (intros j; apply leqc_S; lia).
        destruct (Rtotal_order (v i k) t) as [Hv|[Hv|Hv]].
        -- (* less *)
           assert (In i l2) by (apply Il2; auto).
           rewrite G2 by (intros Hx; apply Ig2 in Hx; lra).
           rewrite D2 by (intros Hx; apply Ig2 in Hx; lra).
           rewrite C2 by (intros Hx; apply Ie2 in Hx; lra).
           rewrite B2 by (intros Hx; apply Ie2 in Hx; lra).
           rewrite A3 by auto. apply and_iff_compat_l. split; intros Hall j Hj Hl.
           ++ apply Hall; auto. apply Il1. split; auto. apply Hlk in Hl. lra.
           ++ apply Hall; auto. apply Il1 in Hj. tauto.
        -- (* equal *)
           assert (In i e2) by (apply Ie2; auto).
           rewrite G2 by (intros Hx; apply Ig2 in Hx; lra).
           rewrite D2 by (intros Hx; apply Ig2 in Hx; lra).
           rewrite C3 by auto. rewrite B3 by auto.
           rewrite A2 by (intros Hx; apply Il2 in Hx; lra).
           split.
           ++ intros [[Hb H1] H2]. split; auto. intros j Hj Hl. apply Hlk in Hl as [Hl Hv'].
              destruct (Req_dec (v j k) t).
              ** rewrite <- (HL2 j) by auto. apply H2; auto. apply Ie1; auto.
              ** rewrite <- (HL1 j) by auto. apply H1; auto. apply Il1; split; auto; lra.
           ++ intros [Hb Hall]. split; [split; auto|].
              ** intros j Hj Hl. apply Il1 in Hj as [Hj Hv']. rewrite HL1 by auto. apply Hall; auto. apply Hlk. split; auto. lra.
              ** intros j Hj Hl. apply Ie1 in Hj as [Hj Hv']. rewrite HL2 by auto. apply Hall; auto. apply Hlk. split; auto. lra.
        -- (* greater *)
           assert (In i g2) by (apply Ig2; auto).
           rewrite G3 by auto. rewrite D3 by auto.
           rewrite C2 by (intros Hx; apply Ie2 in Hx; lra).
           rewrite B2 by (intros Hx; apply Ie2 in Hx; lra).
           rewrite A2 by (intros Hx; apply Il2 in Hx; lra).
           split.
           ++ intros [[Hb H1] H2]. split; auto. intros j Hj Hl.
              destruct (Rle_lt_dec (v j k) t).
              ** rewrite <- (HL3 j) by auto. apply H1; [apply Hmerge; auto|]. apply Hlk in Hl. tauto.
              ** rewrite <- (HL4 j) by auto. apply H2; auto. apply Ig1; auto.
           ++ intros [Hb Hall]. split; [split; auto|].
              ** intros j Hj Hl. apply Hmerge in Hj as [Hj Hv']. rewrite HL3 by auto. apply Hall; auto. apply Hlk. split; auto. lra.
              ** intros j Hj Hl. apply Ig1 in Hj as [Hj Hv']. rewrite HL4 by auto. apply Hall; auto.
    + exists F. split; auto. split; auto. split; auto. intros i Hi b. split; [|tauto].
      intros Hb. split; auto. intros j Hj Hl. exfalso.
      assert (list_min vc <= v j k)%R by (apply list_min_le, in_map_iff; eauto).
      assert (v i k <= list_max va)%R by (apply list_max_ge, in_map_iff; eauto).
      specialize (Hl k Hk). lra.
Qed.

(** ** nd_helper_a *)
Lemma Aspec_small c F ix : length ix < 2 -> Aspec c F ix F.
Proof.
  intros Hl. split; auto. split; auto. intros i Hi b. split; [|tauto]. intros Hb. split; auto.
  intros j Hj Hne. exfalso. destruct ix as [|x [|y ix]]; simpl in *; try lia; intuition congruence.
Qed.

Lemma one_uniq_value_spec (l : list R) : one_uniq_value l = true -> forall x y, In x l -> In y l -> x = y.
Proof.
  destruct l as [|a l]; simpl; [tauto|]. intros Hall. rewrite forallb_forall in Hall.
  assert (Ha : forall x, a = x \/ In x l -> x = a).
  { intros x [<-|Hx]; auto. specialize (Hall x Hx). apply neqb_true in Hall. auto. }
  intros x y Hx Hy. rewrite (Ha x), (Ha y); auto.
Qed.

Lemma nd_helper_a_spec fuel : forall F ix c,
  length F = n -> StronglySorted lt ix -> (forall x, In x ix -> x < n) ->
  (forall i j, In i ix -> In j ix -> forall k, c <= k -> k < m -> v i k = v j k) ->
  2 <= c -> c <= m -> c + length ix < fuel ->
  exists F', nd_helper_a fuel Ob F ix c = Ok F' /\ Aspec c F ix F'.
Proof.
  induction fuel as [|fuel IH]; intros F ix c HF Hs Hn Heq Hc2 Hcm Hfuel; [lia|].
  cbn [nd_helper_a].
  destruct ix as [|x0 [|x1 [|x2 ix']]] eqn:Eix.
  - exists F; split; auto. apply Aspec_small; simpl; lia.
  - exists F; split; auto. apply Aspec_small; simpl; lia.
  - (* two elements *)
    assert (Hx0 : x0 < n) by (apply Hn; simpl; auto). assert (Hx1 : x1 < n) by (apply Hn; simpl; auto).
    inversion Hs as [|? ? _ Hlt]; subst. inversion Hlt as [|? ? Hlt' _]; subst.
    assert (Hd : is_dominate_loop (pre Ob x0 c) (pre Ob x1 c) false = true <-> leqc c x0 x1).
    { rewrite <- dom_or_eq_leqc by auto. rewrite orb_true_iff. split; [auto|]. intros [?|E]; auto.
      exfalso. apply veqb_spec in E.
      destruct (Hlex x0 x1) as (k & Hk & _ & Hv); auto.
      destruct (Nat.lt_ge_cases k c).
      - rewrite <- (nth_pre x0 c k), <- (nth_pre x1 c k), E in Hv by auto. lra.
      - rewrite (Heq x0 x1) in Hv by (simpl; auto). lra. }
    assert (Hno : forall i : nat, ~ leqc c x1 x0).
    { intros _ Hl. assert (x1 < x0); [|lia]. apply (leqc_index c x0 x1); auto; [lia|].
      intros k Hk1 Hk2. apply Heq; simpl; auto. }
    destruct (is_dominate_loop _ _ _) eqn:Ed.
    + eexists; split; [reflexivity|]. assert (Hl : leqc c x0 x1) by (apply Hd; auto).
      split; [apply raise_to_length|]. split.
      * intros i Hi. apply fr_raise_neq. intros ->. apply Hi; simpl; auto.
      * intros i [<-|[<-|[]]] b.
        -- rewrite fr_raise_neq by lia. split; [|tauto]. intros Hb; split; auto.
           intros j [<-|[<-|[]]] Hne Hlj; [congruence|]. exfalso. apply (Hno 0); auto.
        -- rewrite fr_raise_eq by lia. split.
           ++ intros Hb. split; [lia|]. intros j [<-|[<-|[]]] Hne Hlj; [|congruence].
              rewrite fr_raise_neq by lia. lia.
           ++ intros [Hb Hall]. specialize (Hall x0 (or_introl eq_refl) ltac:(lia) Hl).
              rewrite fr_raise_neq in Hall by lia. lia.
    + exists F; split; auto. split; auto. split; auto.
      intros i Hi b. split; [|tauto]. intros Hb; split; auto. intros j Hj Hne Hl. exfalso.
      destruct Hi as [<-|[<-|[]]], Hj as [<-|[<-|[]]]; try congruence.
      * apply (Hno 0); auto.
      * apply Hd in Hl. discriminate.
  - rewrite <- Eix in *. assert (Hlen3 : length ix >= 3) by (rewrite Eix; simpl; lia).
    replace (match ix with [] => Ok F | [_] => Ok F
       | [l; r] => if is_dominate_loop (pre Ob l c) (pre Ob r c) false
          then Ok (raise_to F r (S (fr F l))) else Ok F
       | _ => if c =? 2 then Ok (sweep_a Ob F ix) else
        let k := c - 1 in let vs := map (fun i => v i k) ix in
        if one_uniq_value vs then nd_helper_a fuel Ob F ix k
            else
              let m := median_low vs in
              let '(l, e, g) := split_by Ob ix m k in
              let le := merge e l in
              do F1 <- nd_helper_a fuel Ob F l c;
              do F2 <- nd_helper_b fuel Ob F1 l e k;
              do F3 <- nd_helper_a fuel Ob F2 e k;
              do F4 <- nd_helper_b fuel Ob F3 le g k;
              nd_helper_a fuel Ob F4 g c end) with
      (if c =? 2 then Ok (sweep_a Ob F ix) else
        let k := c - 1 in let vs := map (fun i => v i k) ix in
        if one_uniq_value vs then nd_helper_a fuel Ob F ix k
            else
              let m := median_low vs in
              let '(l, e, g) := split_by Ob ix m k in
              let le := merge e l in
              do F1 <- nd_helper_a fuel Ob F l c;
              do F2 <- nd_helper_b fuel Ob F1 l e k;
              do F3 <- nd_helper_a fuel Ob F2 e k;
              do F4 <- nd_helper_b fuel Ob F3 le g k;
              nd_helper_a fuel Ob F4 g c) by (rewrite Eix; reflexivity).
    clear x0 x1 x2 ix' Eix. 
    destruct (Nat.eqb_spec c 2) as [->|Hc].
    { eexists; split; [reflexivity|]. apply sweep_a_spec; auto. }
    cbv zeta. set (k := c - 1). set (vs := map (fun i => v i k) ix).
    assert (Hk : k < c) by (unfold k; lia).
    destruct (one_uniq_value vs) eqn:Eu.
    + assert (Hu : forall i j, In i ix -> In j ix -> v i k = v j k).
      { intros i j Hi Hj. apply (one_uniq_value_spec vs Eu); apply in_map_iff; eauto. }
      destruct (IH F ix k) as (F' & E & (A1 & A2 & A3)); auto; try (unfold k; lia).
      { intros i j Hi Hj q Hq1 Hq2. destruct (Nat.eq_dec q k) as [->|]; auto. apply Heq; auto. unfold k in *; lia. }
      exists F'. split; auto. split; auto. split; auto. intros i Hi b. rewrite A3 by auto.
      apply and_iff_compat_l. split; intros Hall j Hj Hne Hl; apply Hall; auto.
      * apply (leqc_S c) in Hl; [|lia]. apply Hl.
      * apply leqc_S; [lia|]. split; auto. fold k. rewrite (Hu i j); auto. lra.
    + set (t := median_low vs).
      assert (Ht : In t vs).
      { apply median_low_In. unfold vs. destruct ix; [simpl in Hlen3; lia|discriminate]. }
      apply in_map_iff in Ht as (it & Hvt & Hit).
      destruct (split_by Ob ix t k) as [[l e] g] eqn:E1.
      destruct (split_by_spec _ _ _ _ _ _ E1) as (Il & Ie & Ig & Is & Ll & Le & Lg & Lx).
      destruct (Is Hs) as (S1 & S2 & S3). destruct Lx as [Lx1 Lx2]; [eauto|].
      assert (Hsum : length l + length e + length g = length ix).
      { apply (split_by_length _ _ _ _ _ _ E1). }
      (* 1 *)
      destruct (IH F l c) as (F1 & EF1 & (A1 & A2 & A3)); auto; try lia;
        [firstorder|intros i j Hi Hj; apply Heq; firstorder|].
      (* 2 *)
      destruct (nd_helper_b_spec fuel F1 l e k) as (F2 & EF2 & (B1 & B2 & B3)); auto;
        try (unfold k; lia); [firstorder|firstorder|intros x Hx Hx'; apply Il in Hx; apply Ie in Hx'; lra|].
      (* 3 *)
      destruct (IH F2 e k) as (F3 & EF3 & (C1 & C2 & C3)); auto; try (unfold k; lia).
      { firstorder. }
      { intros i j Hi Hj q Hq1 Hq2. apply Ie in Hi as [Hi Hvi]. apply Ie in Hj as [Hj Hvj].
        destruct (Nat.eq_dec q k) as [->|]; [congruence|]. apply Heq; auto. unfold k in *; lia. }
      (* 4 *)
      assert (Hmerge : forall x, In x (merge e l) <-> In x ix /\ (v x k <= t)%R).
      { intros x. rewrite merge_In, Il, Ie. split; [intros [[? ?]|[? ?]]; split; auto; lra|].
        intros [Hx Hv]. destruct (Req_dec (v x k) t); [left; auto|right; split; auto; lra]. }
      destruct (nd_helper_b_spec fuel F3 (merge e l) g k) as (F4 & EF4 & (D1 & D2 & D3)); auto;
        try (unfold k; lia).
      { apply merge_sorted; auto. intros x Hx Hx'. apply Ie in Hx. apply Il in Hx'. lra. }
      { intros x Hx. apply Hmerge in Hx. firstorder. } { firstorder. }
      { intros x Hx Hx'. apply Hmerge in Hx. apply Ig in Hx'. lra. }
      { rewrite merge_length. unfold k; lia. }
      (* 5 *)
      destruct (IH F4 g c) as (F5 & EF5 & (G1 & G2 & G3)); auto; try lia;
        [firstorder|intros i j Hi Hj; apply Heq; firstorder|].
      exists F5. rewrite EF1. cbn [bind]. rewrite EF2. cbn [bind]. rewrite EF3. cbn [bind].
      rewrite EF4. cbn [bind]. split; [exact EF5|].
      assert (El : forall i, In i l -> fr F5 i = fr F1 i).
      { intros i Hi. apply Il in Hi as [Hi Hv].
        rewrite G2, D2, C2, B2; auto; intros Hx; first [apply Ig in Hx | apply Ie in Hx]; lra. }
      assert (Ee : forall i, In i e -> fr F5 i = fr F3 i).
      { intros i Hi. apply Ie in Hi as [Hi Hv]. rewrite G2, D2; auto; intros Hx; apply Ig in Hx; lra. }
      split; [lia|]. split.
      * intros i Hi. rewrite G2, D2, C2, B2, A2; auto; intros Hx; apply Hi; firstorder.
      * intros i Hi b.
        assert (Hlk : forall j, leqc c j i <-> leqc k j i /\ (v j k <= v i k)%R)
          by (intros j; apply leqc_S; lia).
        destruct (Rtotal_order (v i k) t) as [Hv|[Hv|Hv]].
        -- assert (Hil : In i l) by (apply Il; auto).
           rewrite El by auto. rewrite A3 by auto. apply and_iff_compat_l.
           split; intros Hall j Hj Hne Hl.
           ++ assert (In j l) by (apply Il; split; auto; apply Hlk in Hl; lra).
              rewrite El by auto. apply Hall; auto.
           ++ rewrite <- El by auto. apply Hall; auto. apply Il in Hj. tauto.
        -- assert (Hie : In i e) by (apply Ie; auto).
           rewrite Ee by auto. rewrite C3 by auto. rewrite B3 by auto.
           rewrite A2 by (intros Hx; apply Il in Hx; lra).
           split.
           ++ intros [[Hb H1] H2]. split; auto. intros j Hj Hne Hl. apply Hlk in Hl as [Hl Hv'].
              destruct (Req_dec (v j k) t) as [Ej|Ej].
              ** assert (In j e) by (apply Ie; auto). rewrite Ee by auto. apply H2; auto.
              ** assert (In j l) by (apply Il; split; auto; lra). rewrite El by auto. apply H1; auto.
           ++ intros [Hb Hall]. split; [split; auto|].
              ** intros j Hj Hl. rewrite <- El by auto. apply Il in Hj as [Hj Hv'].
                 apply Hall; auto; [intros ->; lra|]. apply Hlk. split; auto. lra.
              ** intros j Hj Hne Hl. rewrite <- Ee by auto. apply Ie in Hj as [Hj Hv'].
                 apply Hall; auto. apply Hlk. split; auto. lra.
        -- assert (Hig : In i g) by (apply Ig; auto).
           rewrite G3 by auto. rewrite D3 by auto.
           rewrite C2 by (intros Hx; apply Ie in Hx; lra).
           rewrite B2 by (intros Hx; apply Ie in Hx; lra).
           rewrite A2 by (intros Hx; apply Il in Hx; lra).
           assert (E3 : forall j, In j (merge e l) -> fr F3 j = fr F5 j).
           { intros j Hj. apply merge_In in Hj as [Hj|Hj]; [rewrite Ee; auto|].
             rewrite El by auto. rewrite C2, B2; auto; intros Hx; apply Ie in Hx; apply Il in Hj; lra. }
           split.
           ++ intros [[Hb H1] H2]. split; auto. intros j Hj Hne Hl.
              destruct (Rle_lt_dec (v j k) t).
              ** assert (In j (merge e l)) by (apply Hmerge; auto). rewrite <- E3 by auto.
                 apply H1; auto. apply Hlk in Hl. tauto.
              ** apply H2; auto. apply Ig; auto.
           ++ intros [Hb Hall]. split; [split; auto|].
              ** intros j Hj Hl. rewrite E3 by auto. apply Hmerge in Hj as [Hj Hv'].
                 apply Hall; auto; [intros ->; lra|]. apply Hlk. split; auto. lra.
              ** intros j Hj Hne Hl. apply Hall; auto. apply Ig in Hj. tauto.
Qed.

End Table.
