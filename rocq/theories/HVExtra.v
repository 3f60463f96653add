(** Consequences of hypervolume exactness: set function, monotonicity, symmetries,
    submodularity. *)
From Coq Require Import List Arith Lia Reals Lra Permutation.
From Verif Require Import Num Exn ListAux NDSSpec HVModel HVSpec HVTheory HVTop.
Import ListNotations.
Open Scope R_scope.

(** * More theory of the algebraic volume *)
Lemma pjoin_assoc d p c e k : (k < d)%nat -> pjoin p (pjoin c e) k = pjoin (pjoin p c) e k.
Proof. intros _. unfold pjoin. rewrite Rmax_assoc. reflexivity. Qed.

Lemma hvs_map_join d r P c e :
  hvs d r (map (fun p => pjoin p c) P) e = hvs d r P (pjoin c e).
Proof.
  revert e. induction P as [|p P IH]; intros e; simpl; auto.
  rewrite !IH.
  rewrite (box_ext d r r (pjoin (pjoin p c) e) (pjoin p (pjoin c e))) by
    (intros; auto; symmetry; apply (pjoin_assoc d); auto).
  rewrite (hvs_ext_c d r P (pjoin c (pjoin (pjoin p c) e)) (pjoin p (pjoin c e))); auto.
  intros k Hk. unfold pjoin.
  rewrite (Rmax_comm (p k) (c k)), Rmax_assoc, Rmax_assoc. rewrite (Rmax_left (c k) (c k)) by lra.
  rewrite (Rmax_comm (c k) (p k)), <- Rmax_assoc. reflexivity.
Qed.
Lemma hvs_join d r P c : hvs d r P c = hv d r (map (fun p => pjoin p c) P).
Proof.
  transitivity (hvs d r (map (fun p => pjoin p c) P) c).
  - rewrite hvs_map_join. apply hvs_ext_c. intros k Hk. unfold pjoin. rewrite Rmax_left; lra.
  - apply hvs_hv. intros q k Hq Hk. apply in_map_iff in Hq as (p & <- & Hp). unfold pjoin. apply Rmax_r.
Qed.
Lemma hvs_incl d r P Q c : (forall p, In p P -> In p Q) -> hvs d r P c <= hvs d r Q c.
Proof.
  intros Hpq. rewrite !hvs_join. apply hv_incl. intros q Hq. apply in_map_iff in Hq as (p & <- & Hp).
  apply in_map_iff. eauto.
Qed.

Lemma prodn_mult d a b : prodn d (fun k => a k * b k) = prodn d a * prodn d b.
Proof. induction d as [|d IH]; simpl; [ring|]. rewrite IH. ring. Qed.

Section Affine.
Variables (d : nat) (s t : nat -> R).
Hypothesis Hs : forall k, (k < d)%nat -> 0 < s k.
Definition aff (p : pt) : pt := fun k => s k * p k + t k.
Lemma Rmax_affine a b x y : 0 < a -> Rmax (a * x + b) (a * y + b) = a * Rmax x y + b.
Proof.
  intros Ha. unfold Rmax. destruct (Rle_dec x y), (Rle_dec (a*x+b) (a*y+b)); auto; try nra.
Qed.
Lemma box_aff r p : box d (aff r) (aff p) = prodn d s * box d r p.
Proof.
  unfold box. rewrite <- prodn_mult. apply prodn_ext. intros k Hk. unfold aff.
  replace (s k * r k + t k - (s k * p k + t k)) with (s k * (r k - p k) + 0) by ring.
  replace 0 with (s k * 0 + 0) at 1 by ring. rewrite Rmax_affine by auto. ring.
Qed.
Lemma pjoin_aff p c k : (k < d)%nat -> pjoin (aff p) (aff c) k = aff (pjoin p c) k.
Proof. intros Hk. apply Rmax_affine; auto. Qed.
Lemma hvs_aff r P c : hvs d (aff r) (map aff P) (aff c) = prodn d s * hvs d r P c.
Proof.
  revert c. induction P as [|p P IH]; intros c; simpl; [ring|].
  rewrite (box_ext d (aff r) (aff r) (pjoin (aff p) (aff c)) (aff (pjoin p c))) by (auto using pjoin_aff).
  rewrite (hvs_ext_c d (aff r) (map aff P) (pjoin (aff p) (aff c)) (aff (pjoin p c))) by (auto using pjoin_aff).
  rewrite !IH, box_aff. ring.
Qed.
Lemma hv_aff r P : hv d (aff r) (map aff P) = prodn d s * hv d r P.
Proof. induction P as [|p P IH]; simpl; [ring|]. rewrite IH, box_aff, hvs_aff. ring. Qed.
End Affine.

Lemma prodn_fold d a : prodn d a = fold_right Rmult 1 (map a (seq 0 d)).
Proof.
  induction d as [|d IH]; [reflexivity|]. rewrite seq_S, map_app. simpl. rewrite IH.
  generalize (map a (seq 0 d)). intros l. induction l as [|x l IHl]; simpl; [ring|]. rewrite <- IHl. ring.
Qed.
Lemma fold_mult_perm l l' : Permutation l l' -> fold_right Rmult 1 l = fold_right Rmult 1 l'.
Proof. induction 1; simpl; try lra; try congruence. Qed.

Section CoordPerm.
Variables (d : nat) (sigma : nat -> nat).
Hypothesis Hp : Permutation (map sigma (seq 0 d)) (seq 0 d).
Definition cp (p : pt) : pt := fun k => p (sigma k).
Lemma prodn_perm a : prodn d (fun k => a (sigma k)) = prodn d a.
Proof. rewrite !prodn_fold. apply fold_mult_perm. rewrite <- (map_map sigma a). apply Permutation_map; auto. Qed.
Lemma box_cp r p : box d (cp r) (cp p) = box d r p.
Proof. unfold box. apply (prodn_perm (fun k => Rmax 0 (r k - p k))). Qed.
Lemma hvs_cp r P c : hvs d (cp r) (map cp P) (cp c) = hvs d r P c.
Proof.
  revert c. induction P as [|p P IH]; intros c; simpl; auto.
  change (pjoin (cp p) (cp c)) with (cp (pjoin p c)). rewrite !IH, box_cp. ring.
Qed.
Lemma hv_cp r P : hv d (cp r) (map cp P) = hv d r P.
Proof. induction P as [|p P IH]; simpl; auto. rewrite IH, box_cp, hvs_cp. ring. Qed.
End CoordPerm.

(** * Specification level *)
Notation HVof front ref := (hv (length ref) (co ref) (map co front)).

Lemma is_hv_iff front ref v : rows_ok front ref -> (is_hypervolume front ref v <-> v = HVof front ref).
Proof.
  intros Hr. split.
  - intros Hv. apply (is_hypervolume_unique front ref); auto. apply hv_is_hypervolume; auto.
  - intros ->. apply hv_is_hypervolume; auto.
Qed.

Lemma covered_le F G ref : rows_ok F ref -> rows_ok G ref -> covered_by F G ref -> HVof F ref <= HVof G ref.
Proof.
  intros HF HG Hc. apply hv_le. intros y Hy Hyr Hcov.
  apply cov_spec in Hcov as (p & Hp & Hk). apply in_map_iff in Hp as (p' & <- & Hp').
  destruct (Hc p' Hp') as (q & Hq & Hlen & Hqp).
  { split; [rewrite (HF p'); auto|]. rewrite (HF p') by auto. intros k Hkl.
    specialize (Hk k Hkl). specialize (Hyr k Hkl). unfold co in *. lra. }
  apply cov_spec. exists (co q). split; [apply in_map; auto|].
  intros k Hkl. rewrite (HG q) in Hqp by auto. specialize (Hqp k Hkl). specialize (Hk k Hkl). unfold co in *. lra.
Qed.

Lemma is_hv_mono F G ref v w : rows_ok F ref -> rows_ok G ref -> covered_by F G ref ->
  is_hypervolume F ref v -> is_hypervolume G ref w -> v <= w.
Proof.
  intros HF HG Hc Hv Hw. apply (is_hv_iff F ref v HF) in Hv. apply (is_hv_iff G ref w HG) in Hw. subst.
  apply covered_le; auto.
Qed.

Lemma strict_iff x F ref : rows_ok (x :: F) ref ->
  (HVof F ref < HVof (x :: F) ref <->
   (forall k, (k < length ref)%nat -> nth k x 0 < nth k ref 0) /\
   (forall p, In p F -> ~ weakly_dominates p x)).
Proof.
  intros Hr. assert (Hx : length x = length ref) by (apply Hr; simpl; auto).
  assert (HF : rows_ok F ref) by (intros p Hp; apply Hr; simpl; auto).
  split.
  - intros Hlt. split.
    + intros k Hk. destruct (Rlt_le_dec (nth k x 0) (nth k ref 0)) as [|Hle]; auto. exfalso.
      assert (E : HVof (x :: F) ref = HVof F ref) by exact (hv_dead (length ref) (co ref) (map co F) (co x) k Hk Hle). lra.
    + intros p Hp [Hl Hw]. assert (E : HVof (x :: F) ref = HVof F ref); [|lra].
      apply (hv_dominated (length ref) (co ref) (map co F) (co x) (co p)); [apply in_map; auto|].
      intros k Hk. apply Hw. rewrite (HF p); auto.
  - intros [Hin Hnd]. apply hv_strict; auto.
    intros q Hq. apply in_map_iff in Hq as (p & <- & Hp).
    destruct (not_all_ex (length ref) (co p) (co x)) as [Hle|(k & Hk & Hlt)]; eauto.
    exfalso. apply (Hnd p Hp). split; [rewrite (HF p); auto|]. rewrite (HF p); auto.
Qed.

Lemma affine_HV s t F F' ref ref' :
  (forall k, (k < length ref)%nat -> 0 < s k) -> rows_ok F ref ->
  affine_image s t ref ref' -> Forall2 (affine_image s t) F F' ->
  HVof F' ref' = prodn (length ref) s * HVof F ref.
Proof.
  intros Hs Hr [Hl Hk] HF. rewrite Hl. rewrite <- (hv_aff (length ref) s t Hs (co ref) (map co F)).
  transitivity (hv (length ref) (aff s t (co ref)) (map co F')); [apply hv_ext_r; exact Hk|].
  apply hv_ext_P. rewrite map_map.
  induction HF as [|p p' F F' [Hp1 Hp2] HF IH]; simpl; constructor; auto.
  - intros k Hkk. apply Hp2. rewrite (Hr p); simpl; auto.
  - apply IH. intros q Hq. apply Hr; simpl; auto.
Qed.
Lemma coord_perm_HV sigma F F' ref ref' :
  Permutation (map sigma (seq 0 (length ref))) (seq 0 (length ref)) -> rows_ok F ref ->
  coord_perm sigma ref ref' -> Forall2 (coord_perm sigma) F F' ->
  HVof F' ref' = HVof F ref.
Proof.
  intros Hs Hr [Hl Hk] HF. rewrite Hl. rewrite <- (hv_cp (length ref) sigma Hs (co ref) (map co F)).
  transitivity (hv (length ref) (cp sigma (co ref)) (map co F')); [apply hv_ext_r; exact Hk|].
  apply hv_ext_P. rewrite map_map.
  induction HF as [|p p' F F' [Hp1 Hp2] HF IH]; simpl; constructor; auto.
  - intros k Hkk. apply Hp2. rewrite (Hr p); simpl; auto.
  - apply IH. intros q Hq. apply Hr; simpl; auto.
Qed.

(** * Code level *)
Section Code.
Variables (minf : R) (argsort : list R -> list nat).
Hypothesis Ha : argsort_ok argsort.

Lemma hypervolume_HV F ref : hv_input minf F ref -> hypervolume minf argsort F ref = Ok (HVof F ref).
Proof. intros (H1 & H2 & H3 & H4). apply hypervolume_correct; auto. Qed.

(** the same with the weaker condition for stable sorts *)
Definition hv_ok (F : list (list R)) (ref : list R) : Prop :=
  (1 <= length ref)%nat /\ rows_ok F ref /\ above_sentinel minf F ref /\
  ((length ref <= 3)%nat \/ harmless_ties F ref \/ (argsort_stable argsort /\ harmless_ties_stable F ref)).
Lemma hv_input_ok F ref : hv_input minf F ref -> hv_ok F ref.
Proof. intros (H1 & H2 & H3 & H4). repeat split; auto. tauto. Qed.
Lemma hypervolume_ok F ref : hv_ok F ref -> hypervolume minf argsort F ref = Ok (HVof F ref).
Proof. intros (H1 & H2 & H3 & H4). apply hypervolume_correct_gen; auto. Qed.
Lemma hv_ok_tail x F ref : hv_ok (x :: F) ref -> hv_ok F ref.
Proof.
  intros (H1 & H2 & H3 & H4). repeat split; auto.
  - intros p Hp. apply H2; simpl; auto.
  - intros p k Hp. apply H3; simpl; auto.
  - destruct H4 as [|[[G1 G2]|(Hs & G1 & G2)]]; auto; [right; left|right; right; split; auto]; split.
    + intros p k Hp. apply G1; simpl; auto.
    + intros i j d k Hi Hj Hne. specialize (G2 (S i) (S j) d k). simpl in G2. apply G2; auto; lia.
    + intros p k Hp. apply G1; simpl; auto.
    + intros i j d Hij Hj W1 W2 Hd1 Hd2 Hle Hex Hz. specialize (G2 (S i) (S j) d). simpl in G2.
      apply G2; auto; try lia. intros Ed. destruct (Hz Ed) as (z & Z1 & Z2 & Z3 & Z4). exists (S z). simpl.
      split; [lia|]. split; [lia|]. split; [lia|auto].
Qed.
Lemma hvi_ok x F ref : hv_ok (x :: F) ref ->
  hypervolume_improvement minf argsort x F ref = Ok (HVof (x :: F) ref - HVof F ref).
Proof.
  intros Hi. unfold hypervolume_improvement. rewrite (hypervolume_ok _ _ Hi).
  rewrite (hypervolume_ok F ref) by (apply hv_ok_tail in Hi; auto). reflexivity.
Qed.

Lemma hv_input_tail x F ref : hv_input minf (x :: F) ref -> hv_input minf F ref.
Proof.
  intros (H1 & H2 & H3 & H4). repeat split; auto.
  - intros p Hp. apply H2; simpl; auto.
  - intros p k Hp. apply H3; simpl; auto.
  - destruct H4 as [|[G1 G2]]; auto. right. split.
    + intros p k Hp. apply G1; simpl; auto.
    + intros i j d k Hi Hj Hne. specialize (G2 (S i) (S j) d k). simpl in G2. apply G2; auto; lia.
Qed.

Lemma hvi_HV x F ref : hv_input minf (x :: F) ref ->
  hypervolume_improvement minf argsort x F ref = Ok (HVof (x :: F) ref - HVof F ref).
Proof.
  intros Hi. unfold hypervolume_improvement. rewrite (hypervolume_HV _ _ Hi).
  rewrite (hypervolume_HV F ref) by (apply hv_input_tail in Hi; auto). reflexivity.
Qed.
End Code.

(** mutually non-dominated points strictly inside: ties are harmless in four dimensions *)
Lemma nondominated_harmless front ref : length ref = 4%nat -> rows_ok front ref ->
  (forall p k, In p front -> (k < 4)%nat -> nth k p 0 < nth k ref 0) ->
  mutually_nondominated front -> harmless_ties front ref.
Proof.
  intros Hl Hr Hin Hnd. split.
  - intros p k Hp _ Hk. apply Hin; auto. lia.
  - intros i j d k Hi Hj Hne _ _ Hd Hle Hk1 Hk2. exfalso. apply (Hnd j i Hj Hi Hne).
    assert (Hlj : length (nth j front []) = 4%nat) by (rewrite <- Hl; apply Hr, nth_In; auto).
    assert (Hli : length (nth i front []) = 4%nat) by (rewrite <- Hl; apply Hr, nth_In; auto).
    split; [lia|]. intros l Hll. apply Hle. lia.
Qed.

(** lexicographically sorted points strictly inside, stable sort *)
Lemma lex_harmless front ref : rows_ok front ref ->
  (forall p k, In p front -> (k < length ref)%nat -> nth k p 0 < nth k ref 0) ->
  lex_sorted front -> harmless_ties_stable front ref.
Proof.
  intros Hr Hin Hs. split.
  - intros p k Hp _ Hk. apply Hin; auto. lia.
  - intros i j d Hij Hj _ _ Hd1 Hd2 Hle (l & Hl & Hlt) _. exfalso.
    destruct (Hs i j Hij Hj) as [E|(l' & Heq & Hlt')]; [rewrite E in Hlt; lra|].
    destruct (Nat.le_gt_cases l' d) as [Hl'|Hl'].
    + specialize (Hle l' Hl'). lra.
    + rewrite (Heq l) in Hlt by lia. lra.
Qed.

(** pairwise different values in the middle objectives *)
Lemma distinct_harmless front ref : rows_ok front ref ->
  (forall p k, In p front -> (k < length ref)%nat -> nth k p 0 < nth k ref 0) ->
  (forall i j k, (i < length front)%nat -> (j < length front)%nat -> i <> j -> (k < length ref)%nat ->
     nth k (nth i front []) 0 <> nth k (nth j front []) 0) -> harmless_ties front ref.
Proof.
  intros Hr Hin Hd. split.
  - intros p k Hp _ Hk. apply Hin; auto. lia.
  - intros i j d k Hi Hj Hne _ _ Hdl Hle Hk1 Hk2. apply Hd; auto; lia.
Qed.
