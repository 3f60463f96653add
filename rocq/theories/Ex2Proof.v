(** Proofs about the further examples and scripts. *)
From Coquelicot Require Import Coquelicot.
From Coq Require Import Ascii String List Arith Bool Reals ZArith Lia Lra Permutation.
From Verif Require Import Exn ProbModel ProbSpec ProbProof ProbTop ExModel ExProof Ex2Model BenchSpec Ex2Spec.
Import ListNotations.
Open Scope R_scope.

(** * argmin *)
Lemma argmin_spec l : match argmin l with
  | None => l = []
  | Some i => (i < length l)%nat /\ forall j, (j < length l)%nat -> nth i l 0 <= nth j l 0 /\ ((j < i)%nat -> nth i l 0 < nth j l 0)
  end.
Proof.
  induction l as [|a l IH]; simpl; auto. destruct (argmin l) as [i|].
  - destruct IH as [Hi H]. destruct (rleb a (nth i l 0)) eqn:E.
    + apply rleb_true in E. split. lia. intros [|j] Hj; simpl. split. lra. lia. split; [|lia]. destruct (H j ltac:(lia)). lra.
    + apply rleb_false in E. split. lia. intros [|j] Hj; simpl. split; auto. lra. destruct (H j ltac:(lia)). split; auto. intros. apply H1. lia.
  - subst l. simpl. split. lia. intros [|j] Hj; simpl. split. lra. lia. lia.
Qed.
Lemma argmin_some l : l <> [] -> exists i, argmin l = Some i.
Proof. generalize (argmin_spec l). destruct (argmin l); eauto. intros; contradiction. Qed.

Lemma vdiff_length a b : length a = length b -> length (vdiff a b) = length a.
Proof. intros. unfold vdiff. rewrite map_length, combine_length. lia. Qed.
Lemma vdiff_nth a b j : length a = length b -> nth j (vdiff a b) 0 = nth j a 0 - nth j b 0.
Proof.
  revert b j. induction a as [|x a IH]; intros [|y b] [|j] H; simpl in *; try discriminate; try ring. apply IH. lia.
Qed.
Lemma norm2_vdiff x c : norm2 (vdiff x c) = dist x c.
Proof. unfold norm2, dist, vdiff. f_equal. induction (combine x c) as [|p l IH]; simpl; auto. rewrite IH. auto. Qed.

(** * Boxes *)
Lemma nth_map_lt {A} (f : A -> R) l d : forall j, (j < length l)%nat -> nth j (map f l) 0 = f (nth j l d).
Proof. induction l as [|a l IH]; intros [|j] H; simpl in *; try lia; auto. apply IH. lia. Qed.
Lemma map_abs_nth l j : nth j (map Rabs l) 0 = Rabs (nth j l 0).
Proof. rewrite <- (Rabs_R0) at 1. apply map_nth. Qed.
Lemma Rabs_0_nth l j : nth j (map Rabs l) 0 = Rabs (nth j l 0).
Proof. apply map_abs_nth. Qed.
Lemma union_box_eq x centers radii : Forall (fun c => length c = length x) centers -> Forall (fun h => length h = length x) radii -> length radii = length centers -> centers <> [] ->
  exists i c h g, nth_error centers i = Some c /\ nth_error radii i = Some h /\ (forall j c', nth_error centers j = Some c' -> dist x c <= dist x c') /\
  union_box x centers radii = Ok g /\ length g = length x /\
  (Forall (fun a => a <= 0) g <-> in_boxc x c h) /\
  (in_boxc x c h -> forall j, (j < length x)%nat -> nth j g 0 = Rabs (nth j x 0 - nth j c 0) - nth j h 0) /\
  (~ in_boxc x c h -> forall j, (j < length x)%nat -> nth j g 0 = Rmax (Rabs (nth j x 0 - nth j c 0) - nth j h 0) 0).
Proof.
  intros Hc Hr Hl Hn. unfold union_box. generalize (argmin_spec (map (fun c => norm2 (vdiff x c)) centers)).
  destruct (argmin _) as [i|]; [|intros E; destruct centers; [congruence|discriminate]].
  rewrite map_length. intros [Hi Hm].
  destruct (nth_error centers i) as [c|] eqn:Ec; [|apply nth_error_None in Ec; lia].
  destruct (nth_error radii i) as [h|] eqn:Eh; [|apply nth_error_None in Eh; lia].
  assert (Lc : length c = length x) by (rewrite Forall_forall in Hc; apply Hc; eapply nth_error_In; eauto).
  assert (Lh : length h = length x) by (rewrite Forall_forall in Hr; apply Hr; eapply nth_error_In; eauto).
  set (ad := map Rabs (vdiff x c)). assert (La : length ad = length x) by (unfold ad; rewrite map_length, vdiff_length; auto).
  assert (Na : forall j, nth j ad 0 = Rabs (nth j x 0 - nth j c 0)) by (intros j; unfold ad; rewrite Rabs_0_nth, vdiff_nth; auto).
  assert (Nm : forall j, nth j (vdiff h ad) 0 = nth j h 0 - Rabs (nth j x 0 - nth j c 0)) by (intros j; rewrite vdiff_nth, Na; auto; congruence).
  assert (No : forall j, nth j (vdiff ad h) 0 = Rabs (nth j x 0 - nth j c 0) - nth j h 0) by (intros j; rewrite vdiff_nth, Na; auto; congruence).
  assert (Lm : length (vdiff h ad) = length x) by (rewrite vdiff_length; congruence).
  assert (Lo : length (vdiff ad h) = length x) by (rewrite vdiff_length; congruence).
  assert (D : forall j c', nth_error centers j = Some c' -> dist x c <= dist x c').
  { intros j c' Hj. assert (Lj : (j < length centers)%nat) by (apply nth_error_Some; congruence). destruct (Hm j Lj) as [H _].
    rewrite <- !norm2_vdiff.
    rewrite !(nth_map_lt _ _ []) in H by auto.
    rewrite (nth_error_nth _ _ _ Ec), (nth_error_nth _ _ _ Hj) in H. auto. }
  assert (B : forallb (fun m => rleb 0 m) (vdiff h ad) = true <-> in_boxc x c h).
  { rewrite forallb_forall. split.
    - intros H j Hj. specialize (H (nth j (vdiff h ad) 0) ltac:(apply nth_In; lia)). apply rleb_true in H. rewrite Nm in H. lra.
    - intros H a Ha. apply (In_nth _ _ 0) in Ha. destruct Ha as (j & Hj & <-). apply rleb_true. rewrite Nm. specialize (H j ltac:(lia)). lra. }
  assert (NO : forall j l, nth j (map Ropp l) 0 = - nth j l 0) by (intros; rewrite <- Ropp_0 at 1; apply map_nth).
  destruct (forallb (fun m => rleb 0 m) (vdiff h ad)) eqn:E.
  - assert (I : in_boxc x c h) by (apply B; auto). exists i, c, h, (map Ropp (vdiff h ad)). repeat (split; auto). rewrite map_length; auto.
    + intros _. rewrite Forall_forall. intros a Ha. apply in_map_iff in Ha. destruct Ha as (m & <- & Hm'). rewrite forallb_forall in E. specialize (E m Hm'). apply rleb_true in E. lra.
    + intros _ j Hj. rewrite NO, Nm. ring.
    + contradiction.
  - assert (I : ~ in_boxc x c h) by (rewrite <- B; congruence). exists i, c, h, (map (fun m => Rmax m 0) (vdiff ad h)). repeat (split; auto). rewrite map_length; auto.
    + intros H. exfalso. apply I. intros j Hj. rewrite Forall_forall in H. assert (Hin : In (Rmax (nth j (vdiff ad h) 0) 0) (map (fun m => Rmax m 0) (vdiff ad h))) by (apply (in_map (fun m => Rmax m 0)); apply nth_In; lia).
      specialize (H _ Hin). rewrite No in H. generalize (Rmax_l (Rabs (nth j x 0 - nth j c 0) - nth j h 0) 0). lra.
    + contradiction.
    + contradiction.
    + intros _ j Hj. rewrite (nth_map_lt _ _ 0), No by lia. auto.
Qed.

(** * Polynomial features *)
Lemma comb_rep_S d c t : comb_rep (S d) (c :: t) = map (cons c) (comb_rep d (c :: t)) ++ comb_rep (S d) t.
Proof. reflexivity. Qed.
Lemma multisets_S n k : multisets (S n) (S k) = (multisets (S n) k + multisets n (S k))%nat.
Proof. reflexivity. Qed.
Lemma comb_rep_length d : forall t, length (comb_rep d t) = multisets (length t) d.
Proof. induction d as [|d IH]; intros t. reflexivity. induction t as [|c t IHt]. reflexivity.
  rewrite comb_rep_S, app_length, map_length, IH, IHt. reflexivity. Qed.
Lemma comb_sub_length d : forall t, length (comb_sub d t) = subsets (length t) d.
Proof. intros t. revert d. induction t as [|c t IH]; intros [|d]; try reflexivity. simpl. rewrite app_length, map_length, !IH. reflexivity. Qed.
Lemma multisets_comb n : forall k, multisets n k = comb (n + k - 1) k.
Proof.
  induction n as [|n IHn]; intros k.
  - destruct k as [|k]. reflexivity. rewrite comb_gt by lia. reflexivity.
  - induction k as [|k IHk]. rewrite comb_n0. reflexivity. rewrite multisets_S, IHk, IHn. replace (S n + S k - 1)%nat with (S (n + k)) by lia. rewrite comb_S.
    replace (S n + k - 1)%nat with (n + k)%nat by lia. replace (n + S k - 1)%nat with (n + k)%nat by lia. auto.
Qed.
Lemma multisets_1 n : multisets n 1 = n.
Proof. induction n as [|n IH]. reflexivity. rewrite multisets_S, IH. simpl. lia. Qed.
Lemma flat_map_length {A B} (f : A -> list B) l : length (flat_map f l) = sum_nat (map (fun a => length (f a)) l).
Proof. induction l; simpl; auto. rewrite app_length, IHl. auto. Qed.
Lemma features_length degree io t : (1 <= degree)%nat -> t <> [] -> exists l, poly_features degree io t = Ok l /\
  length l = sum_nat (map (fun k => if io then subsets (length t) k else multisets (length t) k) (seq 1 degree)).
Proof.
  intros Hd Ht. unfold poly_features. destruct (Nat.leb_spec 1 degree); [|lia].
  set (rest := flat_map _ _). assert (L : length (t ++ rest) = sum_nat (map (fun k => if io then subsets (length t) k else multisets (length t) k) (seq 1 degree))).
  { rewrite app_length. unfold rest. rewrite flat_map_length. destruct degree as [|d]; [lia|]. replace (S d - 1)%nat with d by lia. simpl seq. simpl map. simpl sum_nat. f_equal.
    - destruct io. clear. induction t as [|a t IH]; simpl; auto. destruct (length t) eqn:E; simpl in *; lia.
      symmetry. apply multisets_1.
    - f_equal. apply map_ext. intros k. rewrite map_length. destruct io. apply comb_sub_length. apply comb_rep_length. }
  destruct (t ++ rest) eqn:E. destruct t; [congruence|discriminate]. eauto.
Qed.
Lemma multisets_pos n k : (1 <= n)%nat -> (1 <= multisets n k)%nat.
Proof. intros H. destruct n as [|n]; [lia|]. induction k as [|k IH]. simpl; lia. rewrite multisets_S. lia. Qed.
Lemma forward_iff n degree w b x : (1 <= n)%nat -> length x = n -> length w = hidden_dim n degree ->
  ((exists y, poly_forward n degree w b x = Ok y) <-> degree = 2%nat).
Proof.
  intros Hn Hx Hw. unfold poly_forward. rewrite Hw, Nat.eqb_refl.
  assert (Hxn : x <> []) by (destruct x; simpl in *; [lia|discriminate]).
  destruct degree as [|degree].
  - unfold poly_features. simpl. split. intros (y & E). discriminate. discriminate.
  - destruct (features_length (S degree) false x ltac:(lia) Hxn) as (l & -> & L). cbn [bind]. rewrite andb_true_r, L, Hx. unfold hidden_dim.
    assert (M1 := multisets_1 n).
    rewrite <- multisets_comb. destruct (Nat.eqb_spec (sum_nat (map (fun k => multisets n k) (seq 1 (S degree)))) (multisets n (S degree) + n)) as [E|E].
    + split; eauto. intros _. destruct degree as [|[|degree]]; auto.
      * cbn [seq map] in E. unfold sum_nat in E. cbn [fold_right] in E. rewrite M1 in E. lia.
      * exfalso. replace (seq 1 (S (S (S degree)))) with (1%nat :: 2%nat :: seq 3 degree ++ [S (S (S degree))]) in E.
        2:{ change [S (S (S degree))] with [(3 + degree)%nat]. rewrite <- (seq_S degree 3). reflexivity. }
        cbn [map] in E. rewrite map_app in E. unfold sum_nat in E. cbn [fold_right] in E. rewrite M1 in E.
        assert (A : sum_nat (map (fun k => multisets n k) (seq 3 degree) ++ map (fun k => multisets n k) [S (S (S degree))]) =
                    (sum_nat (map (fun k => multisets n k) (seq 3 degree)) + multisets n (S (S (S degree))))%nat).
        { generalize (map (fun k => multisets n k) (seq 3 degree)). intros ll. induction ll; simpl. lia. simpl in IHll. lia. }
        unfold sum_nat in A. rewrite A in E. assert (P := multisets_pos n 2 Hn). lia.
    + split. intros (y & H). discriminate. intros [= ->]. exfalso. apply E. cbn [seq map]. unfold sum_nat. cbn [fold_right]. rewrite M1. lia.
Qed.

(** * Fronts as problems *)
Lemma row3 (P : list R -> Prop) : (forall a b c, P [a; b; c]) -> forall x, length x = 3%nat -> P x.
Proof. intros H x Hx. destruct x as [|a [|b [|c [|d x]]]]; simpl in Hx; try lia. apply H. Qed.
Lemma sphere_rows fuel F y : (496 < fuel)%nat -> sphere_front fuel 3 = Ok F -> In y F -> length y = 3%nat /\ Forall (fun a => 0 <= a) y /\ sumsq y = 1.
Proof.
  intros Hf EF Hy. destruct (ref_dirs_default fuel 3 None 496 ltac:(lia) Hf eq_refl) as (p & D & E & Hp & _ & H & _).
  unfold sphere_front in EF. rewrite E in EF. cbn [bind] in EF. injection EF as <-. unfold generic_sphere in Hy. apply in_map_iff in Hy. destruct Hy as (r & <- & Hr).
  apply H in Hr. destruct (lattice_facts 3 p r Hp Hr) as (L & N & S). rewrite map_length. split; auto.
  assert (Hx : exists a, In a r /\ a <> 0).
  { destruct (Forall_Exists_dec (fun a => a = 0) (fun a => Req_EM_T a 0) r) as [A|A].
    - exfalso. assert (T : total r = 0) by (clear - A; induction A; simpl; auto; unfold total in *; simpl; lra). lra.
    - apply Exists_exists in A. destruct A as (a & Ha & Hn). eauto. }
  split; [|apply (sphere_row r Hx)].
  rewrite Forall_forall in *. intros a Ha. apply in_map_iff in Ha. destruct Ha as (b & <- & Hb).
  apply Rmult_le_pos; auto. unfold norm2. destruct (Req_dec (sqrt (fold_right (fun a s => a * a + s) 0 r)) 0) as [->|Hn]. rewrite Rinv_0. lra.
  left. apply Rinv_0_lt_compat. generalize (sqrt_pos (fold_right (fun a s => a * a + s) 0 r)). lra.
Qed.
Lemma simplex_rows fuel F y : (496 < fuel)%nat -> simplex_front fuel 3 = Ok F -> In y F -> length y = 3%nat /\ Forall (fun a => 0 <= a) y /\ sumv y = / 2.
Proof.
  intros Hf EF Hy. destruct (ref_dirs_default fuel 3 None 496 ltac:(lia) Hf eq_refl) as (p & D & E & Hp & _ & H & _).
  unfold simplex_front in EF. rewrite E in EF. cbn [bind] in EF. injection EF as <-. apply in_map_iff in Hy. destruct Hy as (r & <- & Hr).
  apply H in Hr. destruct (lattice_facts 3 p r Hp Hr) as (L & N & S). rewrite map_length. split; auto. split.
  - rewrite Forall_forall in *. intros a Ha. apply in_map_iff in Ha. destruct Ha as (b & <- & Hb). specialize (N b Hb). lra.
  - fold (total (map (fun a => / 2 * a) r)). change (sumv (map (fun a => / 2 * a) r)) with (total (map (fun a => / 2 * a) r)). rewrite total_scale, S. ring.
Qed.
Lemma sq_le1 a : -1 <= a <= 1 -> 0 <= a * a <= 1.
Proof. intros. split; nra. Qed.
Ltac l3 x Hx := destruct x as [|? [|? [|? [|? x]]]]; simpl in Hx; try (exfalso; discriminate Hx); clear Hx.
Lemma wdom3 a b c a' b' c' : wdom [a; b; c] [a'; b'; c'] -> a <= a' /\ b <= b' /\ c <= c'.
Proof. intros H. inversion H as [|? ? ? ? H1 H2]; subst. inversion H2 as [|? ? ? ? H3 H4]; subst. inversion H4; subst. auto. Qed.
Lemma Forall3 (P : R -> Prop) a b c : Forall P [a; b; c] -> P a /\ P b /\ P c.
Proof. intros H. inversion H as [|? ? H1 H2]; subst. inversion H2 as [|? ? H3 H4]; subst. inversion H4; auto. Qed.
Lemma sphere_eq a b c a' b' c' : a <= a' -> b <= b' -> c <= c' -> a * a + (b * b + (c * c + 0)) = 1 -> a' * a' + (b' * b' + (c' * c' + 0)) = 1 ->
  (0 <= a /\ 0 <= b /\ 0 <= c) \/ (a' <= 0 /\ b' <= 0 /\ c' <= 0) -> a = a' /\ b = b' /\ c = c'.
Proof.
  intros A B C S S' [(P1 & P2 & P3)|(P1 & P2 & P3)].
  - assert (a * a <= a' * a') by (apply Rmult_le_compat; lra). assert (b * b <= b' * b') by (apply Rmult_le_compat; lra). assert (c * c <= c' * c') by (apply Rmult_le_compat; lra).
    assert (a * a = a' * a') by lra. assert (b * b = b' * b') by lra. assert (c * c = c' * c') by lra. repeat split; apply Rsqr_inj; unfold Rsqr; lra.
  - assert (a' * a' <= a * a) by (rewrite <- (Rmult_opp_opp a), <- (Rmult_opp_opp a'); apply Rmult_le_compat; lra). assert (b' * b' <= b * b) by (rewrite <- (Rmult_opp_opp b), <- (Rmult_opp_opp b'); apply Rmult_le_compat; lra). assert (c' * c' <= c * c) by (rewrite <- (Rmult_opp_opp c), <- (Rmult_opp_opp c'); apply Rmult_le_compat; lra).
    assert (a * a = a' * a') by lra. assert (b * b = b' * b') by lra. assert (c * c = c' * c') by lra.
    repeat split; [cut (- a = - a')|cut (- b = - b')|cut (- c = - c')]; try lra; apply Rsqr_inj; unfold Rsqr; lra.
Qed.
Lemma fronts_optimal fuel P x y : P = front_convex fuel \/ P = front_concave fuel \/ P = front_linear fuel -> feasible P x -> feasible P y -> wdom y x -> y = x.
Proof.
  intros HP (Lx & Bx & Ex & _) (Ly & By & Ey & _) W. l3 x Lx. l3 y Ly.
  apply wdom3 in W. destruct W as (W1 & W2 & W3). apply Forall3 in Bx, By. destruct Bx as (Bx1 & Bx2 & Bx3), By as (By1 & By2 & By3).
  destruct HP as [->|[->| ->]]; unfold front_convex, front_concave, front_linear, sumsq, sumv in *; simpl in *.
  - destruct (sphere_eq _ _ _ _ _ _ W1 W2 W3 ltac:(lra) ltac:(lra) ltac:(right; lra)) as (-> & -> & ->). auto.
  - destruct (sphere_eq _ _ _ _ _ _ W1 W2 W3 ltac:(lra) ltac:(lra) ltac:(left; lra)) as (-> & -> & ->). auto.
  - f_equal; [|f_equal; [|f_equal]]; lra.
Qed.
Lemma fronts_ieq fuel P x : P = front_convex fuel \/ P = front_concave fuel \/ P = front_linear fuel -> length x = 3%nat -> Forall (fun a => fp_lo P <= a <= fp_hi P) x -> fp_eq P x = 0 -> fp_ieq P x <= 0.
Proof.
  intros HP Lx Bx Ex. l3 x Lx. apply Forall3 in Bx. destruct Bx as (B1 & B2 & B3).
  destruct HP as [->|[->| ->]]; unfold front_convex, front_concave, front_linear, sumsq, sumv in *; simpl in *; try (generalize (Rle_0_sqr r1); unfold Rsqr); lra.
Qed.

(** * MOP1 *)
Lemma sumsq_nonneg l : 0 <= sumsq l.
Proof. induction l as [|a l IH]; simpl. lra. generalize (Rle_0_sqr a). unfold Rsqr. lra. Qed.
Lemma sumsq_zero l : sumsq l <= 0 -> Forall (fun a => a = 0) l.
Proof.
  induction l as [|a l IH]; simpl; intros H; auto. assert (P := sumsq_nonneg l). assert (Q := Rle_0_sqr a). unfold Rsqr in Q.
  constructor; [|apply IH; lra]. apply Rsqr_0_uniq. unfold Rsqr. lra.
Qed.
Lemma sumsq_shift c m l : sumsq (map (fun a => a - c) l) = sumsq (map (fun a => a - m) l) + 2 * (m - c) * (sumv l - INR (length l) * m) + INR (length l) * (m - c) * (m - c).
Proof. induction l as [|a l IH]. simpl. ring. simpl length. rewrite S_INR. simpl. rewrite IH. ring. Qed.
Lemma mop1_weighted p l : (1 + p) * nth 0 (mop1 l) 0 + (1 - p) * nth 1 (mop1 l) 0 = 2 * sumsq (map (fun a => a - p) l) + 2 * INR (length l) * (1 - p * p).
Proof. unfold mop1. simpl. induction l as [|a l IH]. simpl. ring. simpl length. rewrite S_INR. simpl. 
  transitivity ((1 + p) * (a - 1) * (a - 1) + (1 - p) * (a + 1) * (a + 1) + ((1 + p) * sumsq (map (fun a0 => a0 - 1) l) + (1 - p) * sumsq (map (fun a0 => a0 + 1) l))). ring. rewrite IH. ring. Qed.
Lemma Forall_repeat p l : Forall (fun a => a - p = 0) l -> l = repeat p (length l).
Proof. induction 1; simpl; auto. f_equal; auto. lra. Qed.
Lemma sumsq_repeat c p n : sumsq (map (fun a => a - c) (repeat p n)) = INR n * ((p - c) * (p - c)).
Proof. induction n as [|n IH]. simpl. ring. rewrite S_INR. simpl. rewrite IH. ring. Qed.
Lemma mop1_minus x : mop1 x = [sumsq (map (fun a => a - 1) x); sumsq (map (fun a => a - -1) x)].
Proof. unfold mop1. f_equal. f_equal. f_equal. apply map_ext. intros; ring. Qed.
Lemma wdom2 a b c d : wdom [a; b] [c; d] <-> a <= c /\ b <= d.
Proof. split. intros H. inversion H as [|? ? ? ? H1 H2]; subst. inversion H2; subst. auto. intros [A B]. constructor; auto. Qed.
Lemma dom2_scaled c a b d e : 0 < c -> a < d -> b <= e -> dominates [c * a; c * b] [c * d; c * e].
Proof.
  intros Hc A B. apply (Rmult_lt_compat_l c) in A; auto. apply (Rmult_le_compat_l c) in B; [|lra]. split. apply wdom2. lra.
  intros E. apply (f_equal (fun l => nth 0 l 0)) in E. simpl in E. lra.
Qed.
Lemma dom2_scaled' c a b d e : 0 < c -> a <= d -> b < e -> dominates [c * a; c * b] [c * d; c * e].
Proof.
  intros Hc A B. apply (Rmult_le_compat_l c) in A; [|lra]. apply (Rmult_lt_compat_l c) in B; auto. split. apply wdom2. lra.
  intros E. apply (f_equal (fun l => nth 1 l 0)) in E. simpl in E. lra.
Qed.
Lemma sq_le_pos a b : 0 <= a -> a <= b -> a * a <= b * b.
Proof. intros. apply Rmult_le_compat; auto. Qed.
Lemma sq_lt_pos a b : 0 <= a -> a < b -> a * a < b * b.
Proof. intros. apply Rmult_le_0_lt_compat; auto. Qed.
Lemma sq_le_neg a b : a <= 0 -> b <= a -> a * a <= b * b.
Proof. intros. rewrite <- (Rmult_opp_opp a), <- (Rmult_opp_opp b). apply sq_le_pos; lra. Qed.
Lemma sq_lt_neg a b : a <= 0 -> b < a -> a * a < b * b.
Proof. intros. rewrite <- (Rmult_opp_opp a), <- (Rmult_opp_opp b). apply sq_lt_pos; lra. Qed.
Lemma mop1_optimal n x : (1 <= n)%nat -> length x = n ->
  ((forall y, length y = n -> ~ dominates (mop1 y) (mop1 x)) <-> exists p, -1 <= p <= 1 /\ x = repeat p n).
Proof.
  intros Hn Lx. assert (Pn : 0 < INR n) by (apply lt_0_INR; lia). split.
  - intros O. set (m := sumv x / INR n). assert (Em : sumv x - INR (length x) * m = 0) by (unfold m; rewrite Lx; field; lra).
    assert (S : forall c, sumsq (map (fun a => a - c) x) = sumsq (map (fun a => a - m) x) + INR n * ((m - c) * (m - c))).
    { intros c. rewrite (sumsq_shift c m), Em, Lx. ring. }
    destruct (Rle_lt_dec (sumsq (map (fun a => a - m) x)) 0) as [Z|Z].
    + apply sumsq_zero in Z. assert (Ex : x = repeat m n). { rewrite <- Lx. apply Forall_repeat. rewrite Forall_map in Z. auto. }
      exists m. split; auto. clear Em S Z. clearbody m.
      destruct (Rle_lt_dec m 1) as [H1|H1]; [destruct (Rle_lt_dec (-1) m) as [H2|H2]; [lra|]|]; exfalso.
      * apply (O (repeat (-1) n)). apply repeat_length. rewrite Ex, !mop1_minus, !sumsq_repeat. apply (dom2_scaled (INR n)); auto; [apply sq_lt_neg|apply sq_le_neg]; lra.
      * apply (O (repeat 1 n)). apply repeat_length. rewrite Ex, !mop1_minus, !sumsq_repeat. apply (dom2_scaled' (INR n)); auto; [apply sq_le_pos|apply sq_lt_pos]; lra.
    + exfalso. apply (O (repeat m n)). apply repeat_length. rewrite !mop1_minus, !sumsq_repeat, (S 1), (S (-1)). split. apply wdom2. lra. intros E. apply (f_equal (fun l => nth 0 l 0)) in E. simpl in E. lra.
  - intros (p & Hp & ->) y Ly [W N]. apply N. clear N.
    assert (A := mop1_weighted p y). assert (B := mop1_weighted p (repeat p n)). rewrite Ly in A. rewrite repeat_length, sumsq_repeat in B. unfold mop1 in A, B, W. simpl in A, B. apply wdom2 in W. destruct W as [W1 W2].
    apply (Rmult_le_compat_l (1 + p)) in W1; [|lra]. apply (Rmult_le_compat_l (1 - p)) in W2; [|lra].
    assert (Z : sumsq (map (fun a => a - p) y) <= 0) by lra. apply sumsq_zero in Z. rewrite Forall_map in Z. apply Forall_repeat in Z. rewrite Z, Ly. auto.
Qed.
Definition vadd (a b : list R) : list R := map (fun p => fst p + snd p) (combine a b).
Lemma mop1_taylor x d : length d = length x -> mop1 (vadd x d) = [nth 0 (mop1 x) 0 + sumv (map (fun p => fst p * snd p) (combine (nth 0 (mop1_jac x) []) d)) + sumsq d;
   nth 1 (mop1 x) 0 + sumv (map (fun p => fst p * snd p) (combine (nth 1 (mop1_jac x) []) d)) + sumsq d].
Proof.
  intros H. unfold mop1, mop1_jac, vadd. simpl. assert (G : forall c, sumsq (map (fun a => a - c) (map (fun p => fst p + snd p) (combine x d))) =
    sumsq (map (fun a => a - c) x) + sumv (map (fun p => fst p * snd p) (combine (map (fun a => 2 * (a - c)) x) d)) + sumsq d).
  { intros c. revert d H. induction x as [|a x IH]; intros [|b d] H; simpl in *; try discriminate. ring. rewrite IH by lia. ring. }
  f_equal. apply G. f_equal. rewrite (map_ext (fun a => a + 1) (fun a => a - -1)), (map_ext (fun a => a + 1) (fun a => a - -1)) by (intros; ring).
  rewrite (map_ext (fun a => 2 * (a + 1)) (fun a => 2 * (a - -1))) by (intros; ring). apply G.
Qed.
Lemma circle_sum x : circle_h x = 0 -> nth 0 (mop1 x) 0 + nth 1 (mop1 x) 0 = 2 + 2 * INR (length x).
Proof. intros H. assert (E := mop1_weighted 0 x). rewrite (map_ext (fun a => a - 0) (fun a => a)), map_id in E by (intros; ring). unfold circle_h in H. lra. Qed.
Lemma circle_taylor x d : length d = length x -> circle_h (vadd x d) = circle_h x + sumv (map (fun p => fst p * snd p) (combine (circle_jac x) d)) + sumsq d.
Proof.
  unfold circle_h, circle_jac, vadd. revert d. induction x as [|a x IH]; intros [|b d] H; simpl in *; try discriminate. ring. specialize (IH d ltac:(lia)). lra.
Qed.
Lemma circle_optimal x y : circle_h x = 0 -> circle_h y = 0 -> length x = length y -> ~ dominates (mop1 y) (mop1 x).
Proof. intros Hx Hy L [W N]. apply circle_sum in Hx, Hy. unfold mop1 in *. simpl in *. apply wdom2 in W. apply N. rewrite L in Hx. f_equal; [|f_equal]; lra. Qed.

(** * Initial points *)
Section Select.
  Variables (labels : list nat) (centers X0 : list (list R)).
  Let mask i := filter (fun j => (nth j labels O =? i)%nat) (seq 0 (length X0)).
  Let rep i := match argmin (map (fun j => norm2 (vdiff (nth j X0 []) (nth i centers []))) (mask i)) with None => [] | Some a => [nth a (mask i) O] end.
  Lemma rep_spec i r : In r (rep i) -> (r < length X0)%nat /\ nth r labels O = i /\
    forall j, (j < length X0)%nat -> nth j labels O = i -> dist (nth r X0 []) (nth i centers []) <= dist (nth j X0 []) (nth i centers []).
  Proof using.
    unfold rep. generalize (argmin_spec (map (fun j => norm2 (vdiff (nth j X0 []) (nth i centers []))) (mask i))). destruct (argmin _) as [a|]; [|intros _ []].
    rewrite map_length. intros [Ha Hm] [<-|[]].
    assert (Hin : In (nth a (mask i) O) (mask i)) by (apply nth_In; auto). unfold mask in Hin at 2. apply filter_In in Hin. destruct Hin as [H1 H2]. apply in_seq in H1. apply Nat.eqb_eq in H2.
    split. lia. split; auto. intros j Hj Ej. rewrite <- !norm2_vdiff.
    assert (Hin : In j (mask i)) by (apply filter_In; split; [apply in_seq; lia|apply Nat.eqb_eq; auto]).
    apply (In_nth _ _ O) in Hin. destruct Hin as (b & Hb & <-). destruct (Hm b Hb) as [H _]. rewrite !(nth_map_lt _ _ O) in H by auto. auto.
  Qed.
  Lemma rep_length i : length (rep i) = if existsb (fun j => nth j labels O =? i)%nat (seq 0 (length X0)) then 1%nat else 0%nat.
  Proof using.
    unfold rep. generalize (argmin_spec (map (fun j => norm2 (vdiff (nth j X0 []) (nth i centers []))) (mask i))). destruct (argmin _) as [a|].
    - rewrite map_length. intros [Ha _]. destruct (existsb _ _) eqn:E; auto. exfalso. assert (Hin : In (nth a (mask i) O) (mask i)) by (apply nth_In; auto). unfold mask in Hin at 2. apply filter_In in Hin.
      destruct Hin as [H1 H2]. assert (existsb (fun j => nth j labels O =? i)%nat (seq 0 (length X0)) = true) by (apply existsb_exists; eauto). congruence.
    - intros H. destruct (existsb _ _) eqn:E; auto. exfalso. apply existsb_exists in E. destruct E as (j & H1 & H2). assert (Hin : In j (mask i)) by (apply filter_In; auto). apply map_eq_nil in H. rewrite H in Hin. auto.
  Qed.
  Lemma reps_spec n : let reps := flat_map rep (seq 0 n) in NoDup reps /\ length reps = count (fun i => existsb (fun j => nth j labels O =? i)%nat (seq 0 (length X0))) (seq 0 n).
  Proof using.
    intros reps. split.
    - apply NoDup_flat_map. apply seq_NoDup. intros i _. unfold rep. destruct (argmin _). constructor; simpl; auto. constructor. constructor.
      intros i j r Hi Hj Hr Hr'. apply rep_spec in Hr, Hr'. destruct Hr as (_ & <- & _), Hr' as (_ & <- & _). auto.
    - unfold reps, count. induction (seq 0 n) as [|i l IH]; simpl; auto. rewrite app_length, IH, rep_length. destruct (existsb _ _); auto.
  Qed.
End Select.
Lemma select_spec labels centers pick X0 N l : picks pick -> select_points labels centers pick X0 N = Ok l ->
  length l = N /\ NoDup l /\ forall r, In r l -> (r < length X0)%nat /\ (nth r labels O < 2 * N)%nat /\
    forall j, (j < length X0)%nat -> nth j labels O = nth r labels O -> dist (nth r X0 []) (nth (nth r labels O) centers []) <= dist (nth j X0 []) (nth (nth r labels O) centers []).
Proof.
  intros Hp. unfold select_points. set (reps := flat_map _ _). assert (R := reps_spec labels centers X0 (2 * N)). destruct R as [R1 R2]. fold reps in R1, R2.
  destruct (Nat.leb_spec N (length reps)) as [H|H]; [|discriminate]. intros [= <-]. destruct (Hp reps N H) as (ix & N1 & L1 & B1 & ->).
  split. rewrite map_length; auto. split.
  - apply NoDup_map_inj; auto. intros a b Ha Hb E. rewrite NoDup_nth in R1. apply (R1 a b); eauto.
  - intros r Hr. apply in_map_iff in Hr. destruct Hr as (k & <- & Hk). assert (Hin : In (nth k reps O) reps) by (apply nth_In; auto). revert Hin. generalize (nth k reps O). intros r Hin.
    apply in_flat_map in Hin. destruct Hin as (i & Hi & Hr). apply rep_spec in Hr. destruct Hr as (Hr & Hl & Hd). apply in_seq in Hi. rewrite Hl. split; auto. split. lia. auto.
Qed.
Lemma select_error labels centers pick X0 N : length labels = length X0 ->
  ((exists e, select_points labels centers pick X0 N = Exn e) <-> (count (fun i => existsb (Nat.eqb i) labels) (seq 0 (2 * N)) < N)%nat).
Proof.
  intros L. unfold select_points. set (reps := flat_map _ _). assert (R := reps_spec labels centers X0 (2 * N)). destruct R as [_ R2]. fold reps in R2.
  replace (count (fun i => existsb (Nat.eqb i) labels) (seq 0 (2 * N))) with (length reps).
  - destruct (Nat.leb_spec N (length reps)). split. intros (e & H'). discriminate. lia. split; eauto.
  - rewrite R2. unfold count. f_equal. apply filter_ext. intros i. apply Bool.eq_iff_eq_true. rewrite !existsb_exists. split.
    + intros (j & Hj & E). apply in_seq in Hj. exists (nth j labels O). split. apply nth_In. lia. rewrite Nat.eqb_sym. auto.
    + intros (a & Ha & E). apply (In_nth _ _ O) in Ha. destruct Ha as (j & Hj & <-). exists j. split. apply in_seq. lia. rewrite Nat.eqb_sym. auto.
Qed.

(** * Tables *)
Lemma triple_eq (a b c a' b' c' : nat) : a = a' -> b = b' -> c = c' -> (a, b, c) = (a', b', c').
Proof. intros -> -> ->. auto. Qed.
Lemma tally_spec rows : tally rows = (count (fun r => fst (fst r) && negb (rleb (snd r) (snd (fst r)))) rows,
  count (fun r => negb (fst (fst r))) rows, count (fun r => fst (fst r) && rleb (snd r) (snd (fst r))) rows).
Proof.
  unfold tally, count.
  assert (G : forall rs w t l, fold_left (fun c row => let '(win, tie, loose) := c in let '(rej, x, y) := row in
    if rej : bool then (if rleb y x then (win, tie, S loose) else (S win, tie, loose)) else (win, S tie, loose)) rs (w, t, l) =
    ((w + length (filter (fun r : bool * R * R => fst (fst r) && negb (rleb (snd r) (snd (fst r)))) rs))%nat,
     (t + length (filter (fun r : bool * R * R => negb (fst (fst r))) rs))%nat, (l + length (filter (fun r : bool * R * R => fst (fst r) && rleb (snd r) (snd (fst r))) rs))%nat)).
  { induction rs as [|[[rej x] y] rs IH]; intros w t l; simpl. rewrite !Nat.add_0_r. auto.
    destruct rej; simpl; [destruct (rleb y x); simpl|]; rewrite IH; apply triple_eq; lia. }
  rewrite G. auto.
Qed.
Lemma tally_hvss_spec rows : tally_hvss rows = (count (fun r => fst (fst r) && negb (rleb (snd (fst r)) (snd r))) rows,
  count (fun r => negb (fst (fst r))) rows, count (fun r => fst (fst r) && rleb (snd (fst r)) (snd r)) rows).
Proof.
  unfold tally_hvss, count.
  assert (G : forall rs w t l, fold_left (fun c row => let '(win, tie, loose) := c in let '(rej, x, y) := row in
    if rej : bool then (if rleb x y then (win, tie, S loose) else (S win, tie, loose)) else (win, S tie, loose)) rs (w, t, l) =
    ((w + length (filter (fun r : bool * R * R => fst (fst r) && negb (rleb (snd (fst r)) (snd r))) rs))%nat,
     (t + length (filter (fun r : bool * R * R => negb (fst (fst r))) rs))%nat, (l + length (filter (fun r : bool * R * R => fst (fst r) && rleb (snd (fst r)) (snd r)) rs))%nat)).
  { induction rs as [|[[rej x] y] rs IH]; intros w t l; simpl. rewrite !Nat.add_0_r. auto.
    destruct rej; simpl; [destruct (rleb x y); simpl|]; rewrite IH; apply triple_eq; lia. }
  rewrite G. auto.
Qed.
Lemma insert_in a l b : In b (insert a l) <-> b = a \/ In b l.
Proof. induction l as [|c l IH]; simpl. intuition. destruct (rleb a c); simpl; [intuition|]. rewrite IH. intuition. Qed.
Lemma insert_length a l : length (insert a l) = S (length l).
Proof. induction l as [|c l IH]; simpl; auto. destruct (rleb a c); simpl; auto. Qed.
Lemma sort_in l b : In b (sort l) <-> In b l.
Proof. induction l as [|a l IH]; simpl. tauto. rewrite insert_in, IH. intuition. Qed.
Lemma sort_length l : length (sort l) = length l.
Proof. induction l as [|a l IH]; simpl; auto. rewrite insert_length, IH. auto. Qed.
Lemma sort_nth l a b i : (forall v, In v l -> a <= v <= b) -> (i < length l)%nat -> a <= nth i (sort l) 0 <= b.
Proof. intros H Hi. apply H. apply sort_in. apply nth_In. rewrite sort_length. auto. Qed.
Lemma median_range l a b : l <> [] -> (forall v, In v l -> a <= v <= b) -> a <= median l <= b.
Proof.
  intros Hn H. assert (L : (0 < length l)%nat) by (destruct l; simpl; [congruence|lia]). unfold median.
  assert (D : (length l / 2 < length l)%nat) by (apply Nat.div_lt; lia). destruct (Nat.even (length l)).
  - assert (A := sort_nth l a b (length l / 2 - 1) H ltac:(lia)). assert (B := sort_nth l a b (length l / 2) H ltac:(lia)). lra.
  - apply sort_nth; auto.
Qed.
Lemma quantile_range q l a b : 0 <= q <= 1 -> l <> [] -> (forall v, In v l -> a <= v <= b) -> a <= quantile q l <= b.
Proof.
  intros Hq Hn H. assert (L : (0 < length l)%nat) by (destruct l; simpl; [congruence|lia]). unfold quantile.
  set (v := q * INR (length l - 1)). assert (Pn := pos_INR (length l - 1)). assert (Hv : 0 <= v <= INR (length l - 1)) by (unfold v; split; [apply Rmult_le_pos; lra|]; rewrite <- (Rmult_1_l (INR (length l - 1))) at 2; apply Rmult_le_compat_r; lra).
  destruct (base_Int_part v) as [I1 I2]. assert (I0 : (0 <= Int_part v)%Z). { cut (-1 < Int_part v)%Z. lia. apply lt_IZR. lra. }
  set (k := Z.to_nat (Int_part v)). assert (Ik : IZR (Int_part v) = INR k) by (unfold k; rewrite INR_IZR_INZ, Z2Nat.id; auto). rewrite Ik in *.
  assert (Hk : (k <= length l - 1)%nat) by (apply INR_le; lra).
  assert (A := sort_nth l a b k H ltac:(lia)). assert (B := sort_nth l a b (Nat.min (S k) (length l - 1)) H ltac:(lia)).
  set (s0 := nth k (sort l) 0) in *. set (s1 := nth (Nat.min (S k) (length l - 1)) (sort l) 0) in *. assert (F : 0 <= v - INR k <= 1) by lra. clearbody s0 s1. set (f := v - INR k) in *. clearbody f.
  assert (0 <= f * (s1 - a)) by (apply Rmult_le_pos; lra). assert (0 <= (1 - f) * (s0 - a)) by (apply Rmult_le_pos; lra).
  assert (0 <= f * (b - s1)) by (apply Rmult_le_pos; lra). assert (0 <= (1 - f) * (b - s0)) by (apply Rmult_le_pos; lra). lra.
Qed.

(** * Bernstein polynomials of degree 5 *)
Lemma bernstein5 c0 c1 c2 c3 c4 c5 t : bernstein [c0; c1; c2; c3; c4; c5] t =
  c0 * (1 - t) ^ 5 + 5 * c1 * t * (1 - t) ^ 4 + 10 * c2 * t ^ 2 * (1 - t) ^ 3 + 10 * c3 * t ^ 3 * (1 - t) ^ 2 + 5 * c4 * t ^ 4 * (1 - t) + c5 * t ^ 5.
Proof.
  unfold bernstein. change (seq 0 (length [c0; c1; c2; c3; c4; c5])) with [0; 1; 2; 3; 4; 5]%nat. change (length [c0; c1; c2; c3; c4; c5] - 1)%nat with 5%nat.
  cbn [map fold_right nth]. change (comb 5 0) with 1%nat. change (comb 5 1) with 5%nat. change (comb 5 2) with 10%nat. change (comb 5 3) with 10%nat. change (comb 5 4) with 5%nat. change (comb 5 5) with 1%nat.
  replace (INR 10) with 10 by (simpl; ring). replace (INR 5) with 5 by (simpl; ring). simpl. ring.
Qed.
Lemma bernstein_increasing c0 c1 c2 c3 c4 c5 s t : c0 < c1 -> c1 < c2 -> c2 < c3 -> c3 < c4 -> c4 < c5 -> 0 <= s -> s < t -> t <= 1 ->
  bernstein [c0; c1; c2; c3; c4; c5] s < bernstein [c0; c1; c2; c3; c4; c5] t.
Proof.
  intros H1 H2 H3 H4 H5 Hs Hst Ht. rewrite !bernstein5.
  set (f := fun t => c0 * (1 - t) ^ 5 + 5 * c1 * t * (1 - t) ^ 4 + 10 * c2 * t ^ 2 * (1 - t) ^ 3 + 10 * c3 * t ^ 3 * (1 - t) ^ 2 + 5 * c4 * t ^ 4 * (1 - t) + c5 * t ^ 5).
  set (f' := fun t => 5 * ((c1 - c0) * (1 - t) ^ 4 + 4 * (c2 - c1) * t * (1 - t) ^ 3 + 6 * (c3 - c2) * t ^ 2 * (1 - t) ^ 2 + 4 * (c4 - c3) * t ^ 3 * (1 - t) + (c5 - c4) * t ^ 4)).
  assert (D : forall x, derivable_pt_lim f x (f' x)). { intros x. apply is_derive_Reals. unfold f, f'. auto_derive; auto. ring. }
  destruct (MVT_cor2 f f' s t Hst (fun c _ => D c)) as (x & E & Hx). fold (f s). fold (f t).
  assert (P : 0 < f' x).
  { unfold f'. assert (0 < x) by lra. assert (0 < 1 - x) by lra.
    assert (0 < (c1 - c0) * (1 - x) ^ 4) by (apply Rmult_lt_0_compat; [lra|apply pow_lt; auto]).
    assert (0 < 4 * (c2 - c1) * x * (1 - x) ^ 3) by (apply Rmult_lt_0_compat; [apply Rmult_lt_0_compat; lra|apply pow_lt; auto]).
    assert (0 < 6 * (c3 - c2) * x ^ 2 * (1 - x) ^ 2) by (apply Rmult_lt_0_compat; [apply Rmult_lt_0_compat; [lra|apply pow_lt; auto]|apply pow_lt; auto]).
    assert (0 < 4 * (c4 - c3) * x ^ 3 * (1 - x)) by (apply Rmult_lt_0_compat; [apply Rmult_lt_0_compat; [lra|apply pow_lt; auto]|auto]).
    assert (0 < (c5 - c4) * x ^ 4) by (apply Rmult_lt_0_compat; [lra|apply pow_lt; auto]). lra. }
  assert (0 < f' x * (t - s)) by (apply Rmult_lt_0_compat; lra). lra.
Qed.
Lemma bernstein_decreasing c0 c1 c2 c3 c4 c5 s t : c1 < c0 -> c2 < c1 -> c3 < c2 -> c4 < c3 -> c5 < c4 -> 0 <= s -> s < t -> t <= 1 ->
  bernstein [c0; c1; c2; c3; c4; c5] t < bernstein [c0; c1; c2; c3; c4; c5] s.
Proof.
  intros. assert (B := bernstein_increasing (- c0) (- c1) (- c2) (- c3) (- c4) (- c5) s t ltac:(lra) ltac:(lra) ltac:(lra) ltac:(lra) ltac:(lra) ltac:(lra) ltac:(lra) ltac:(lra)).
  rewrite !bernstein5 in *. lra.
Qed.

(** * Best values so far *)
Lemma accumulate_spec l : forall m i, (i < length l)%nat -> is_max (m :: firstn (S i) l) (nth i (accumulate m l) 0).
Proof.
  induction l as [|a l IH]; intros m i Hi; simpl in Hi; [lia|].
  assert (M : is_max [m; a] (Rmax m a)).
  { split. unfold Rmax. destruct (Rle_dec m a); simpl; auto. intros b [<-|[<-|[]]]. apply Rmax_l. apply Rmax_r. }
  destruct i as [|i]. simpl. auto.
  destruct (IH (Rmax m a) i ltac:(lia)) as [I1 I2]. change (nth (S i) (accumulate m (a :: l)) 0) with (nth i (accumulate (Rmax m a) l) 0). destruct M as [M1 M2].
  change (firstn (S (S i)) (a :: l)) with (a :: firstn (S i) l). split.
  - destruct I1 as [E|I1]. rewrite <- E. destruct M1 as [M1|[M1|[]]]; [left|right; left]; auto. right. right. auto.
  - intros b [<-|[<-|Hb]].
    + apply (Rle_trans _ (Rmax m a)). apply Rmax_l. apply I2. left; auto.
    + apply (Rle_trans _ (Rmax m a)). apply Rmax_r. apply I2. left; auto.
    + apply I2. right; auto.
Qed.
Lemma accumulate_length l : forall m, length (accumulate m l) = length l.
Proof. induction l; simpl; auto. Qed.
Lemma best_length l : length (best_so_far l) = length l.
Proof. destruct l; simpl; auto. rewrite accumulate_length. auto. Qed.
Lemma best_spec l i : (i < length l)%nat -> is_max (firstn (S i) l) (nth i (best_so_far l) 0).
Proof.
  destruct l as [|a l]; simpl length; [lia|]. intros Hi. destruct i as [|i]. simpl. split. simpl; auto. intros b [<-|[]]. lra.
  apply (accumulate_spec l a i). lia.
Qed.
Lemma best_monotone l i j : (i <= j)%nat -> (j < length l)%nat -> nth i (best_so_far l) 0 <= nth j (best_so_far l) 0.
Proof.
  intros Hij Hj. destruct (best_spec l i ltac:(lia)) as [A _]. destruct (best_spec l j Hj) as [_ B]. apply B.
  replace (S i) with (Nat.min (S i) (S j)) in A by lia. rewrite <- firstn_firstn in A. revert A. generalize (nth i (best_so_far l) 0) (firstn (S j) l). intros v k H. rewrite <- (firstn_skipn (S i) k). apply in_or_app. auto.
Qed.
Lemma nearest_spec archive y : archive <> [] -> exists i a, nearest archive y = Ok i /\ nth_error archive i = Some a /\ forall b, In b archive -> dist y a <= dist y b.
Proof.
  intros Hn. unfold nearest. generalize (argmin_spec (map (fun a => norm2 (vdiff y a)) archive)). destruct (argmin _) as [i|]; [|intros H; apply map_eq_nil in H; congruence].
  rewrite map_length. intros [Hi Hm]. exists i, (nth i archive []). split; auto. split. apply List.nth_error_nth'; auto.
  intros b Hb. apply (In_nth _ _ []) in Hb. destruct Hb as (j & Hj & <-). rewrite <- !norm2_vdiff. destruct (Hm j Hj) as [H _]. rewrite !(nth_map_lt _ _ []) in H by auto. auto.
Qed.
Lemma select_archive_spec archive Y : archive <> [] -> exists ix, select_archive archive Y = Ok ix /\ length ix = length Y /\
  Forall2 (fun i y => exists a, nth_error archive i = Some a /\ forall b, In b archive -> dist y a <= dist y b) ix Y.
Proof.
  intros Hn. induction Y as [|y Y (ix & E & L & F)]. exists []. simpl; auto.
  destruct (nearest_spec archive y Hn) as (i & a & Ei & Ha & Hd). exists (i :: ix). simpl. rewrite Ei. cbn [bind]. rewrite E. cbn [bind]. split; auto. split. simpl; auto. constructor; eauto.
Qed.

(** * Set-ups *)
Lemma saved_spec n performed : (6 <= n)%nat -> (performed = n)%nat -> saved n performed = Ok (seq (n - 5) 6).
Proof.
  intros Hn ->. unfold saved. replace (seq 1 n) with (seq 1 (n - 6) ++ seq (n - 5) 6).
  - rewrite filter_app.
    assert (A : filter (fun k => (n <=? k + 5)%nat) (seq 1 (n - 6)) = []).
    { clear - Hn. assert (G : forall l, (forall k, In k l -> (k + 5 < n)%nat) -> filter (fun k => (n <=? k + 5)%nat) l = []).
      { induction l as [|k l IH]; intros H; simpl; auto. specialize (H k) as Hk. destruct (Nat.leb_spec n (k + 5)). specialize (Hk (or_introl eq_refl)). lia. apply IH. intros. apply H. right; auto. }
      apply G. intros k Hk. apply in_seq in Hk. lia. }
    assert (B : filter (fun k => (n <=? k + 5)%nat) (seq (n - 5) 6) = seq (n - 5) 6).
    { assert (G : forall l, (forall k, In k l -> (n <= k + 5)%nat) -> filter (fun k => (n <=? k + 5)%nat) l = l).
      { induction l as [|k l IH]; intros H; simpl; auto. destruct (Nat.leb_spec n (k + 5)). rewrite IH; auto. intros; apply H; right; auto. specialize (H k (or_introl eq_refl)). lia. }
      apply G. intros k Hk. apply in_seq in Hk. lia. }
    rewrite A, B. auto.
  - replace (n - 5)%nat with (1 + (n - 6))%nat by lia. rewrite <- seq_app. f_equal. lia.
Qed.
Lemma saved_in n performed l : saved n performed = Ok l -> forall k, In k l <-> (1 <= k <= performed /\ n <= k + 5)%nat.
Proof.
  unfold saved. intros H k. destruct (filter _ _) eqn:E; [discriminate|]. injection H as <-. rewrite <- E, filter_In, in_seq, Nat.leb_le. lia.
Qed.
Lemma saved_error n performed : (exists e, saved n performed = Exn e) <-> (performed = 0 \/ performed + 5 < n)%nat.
Proof.
  unfold saved. destruct (filter _ _) as [|a r] eqn:E.
  - split; eauto. intros _. destruct performed as [|p]; auto. right. destruct (Nat.lt_ge_cases (S p + 5) n); auto. exfalso.
    assert (Hin : In (S p) (filter (fun k => (n <=? k + 5)%nat) (seq 1 (S p)))) by (apply filter_In; split; [apply in_seq; lia|apply Nat.leb_le; auto]). rewrite E in Hin. auto.
  - split. intros (e & H). discriminate. intros H. exfalso. assert (Hin : In a (filter (fun k => (n <=? k + 5)%nat) (seq 1 performed))) by (rewrite E; left; auto).
    apply filter_In in Hin. destruct Hin as [H1 H2]. apply in_seq in H1. apply Nat.leb_le in H2. lia.
Qed.

(** * Files of B-splines *)
Definition solid (s : text) : Prop := forall c, In c s -> is_space c = false.
Lemma lstrip_solid s : solid s -> lstrip s = s.
Proof. destruct s as [|c t]; intros H; simpl; auto. rewrite (H c); auto. left; auto. Qed.
Lemma strip_solid s : solid s -> strip s = s.
Proof. intros H. unfold strip. rewrite (lstrip_solid s H), lstrip_solid, rev_involutive; auto. intros c Hc. apply H. apply in_rev. auto. Qed.
Lemma number_solid s : number_text s -> solid s.
Proof. intros (_ & H & _) c Hc. apply H; auto. Qed.
Lemma join_solid l : Forall number_text l -> solid (join l).
Proof.
  induction l as [|a l IH]; intros H. intros c []. inversion H as [|? ? Ha Hl]; subst. destruct l as [|b l]. apply number_solid; auto.
  intros c Hc. change (join (a :: b :: l)) with (a ++ ","%char :: join (b :: l)) in Hc. apply in_app_or in Hc. destruct Hc as [Hc|[<-|Hc]]. apply (number_solid a); auto. reflexivity. apply IH; auto.
Qed.
Lemma split_app s r : (forall c, In c s -> c <> ","%char) -> split (s ++ ","%char :: r) = s :: split r.
Proof.
  induction s as [|c s IH]; intros H. reflexivity.
  simpl. destruct (ascii_dec c ","). exfalso. apply (H c); auto. left; auto. rewrite IH; auto. intros; apply H; right; auto.
Qed.
Lemma split_one s : (forall c, In c s -> c <> ","%char) -> split s = [s].
Proof. induction s as [|c s IH]; intros H; auto. simpl. destruct (ascii_dec c ","). exfalso. apply (H c); auto. left; auto. rewrite IH; auto. intros; apply H; right; auto. Qed.
Lemma split_join l : l <> [] -> Forall number_text l -> split (join l) = l.
Proof.
  induction l as [|a l IH]; intros Hn H. congruence. inversion H as [|? ? Ha Hl]; subst. assert (Hc : forall c, In c a -> c <> ","%char) by (destruct Ha as (_ & Ha & _); intros; apply Ha; auto).
  destruct l as [|b l]. apply split_one; auto. change (join (a :: b :: l)) with (a ++ ","%char :: join (b :: l)). rewrite split_app, IH; auto. discriminate.
Qed.
Lemma join_first l : l <> [] -> Forall number_text l -> exists c t, join l = c :: t /\ ~ In (lower_char c) (tx "kdx").
Proof.
  intros Hn H. destruct l as [|a l]; [congruence|]. inversion H as [|? ? Ha Hl]; subst. destruct Ha as (Na & _ & Fa). destruct a as [|c t]; [congruence|].
  destruct l as [|b l]. exists c, t. split; [auto|apply (Fa c t); auto]. exists c, (t ++ ","%char :: join (b :: l)). split; [auto|apply (Fa c t); auto].
Qed.
Lemma text_eqb_false a b c d : a <> c -> text_eqb (a :: b) (c :: d) = false.
Proof. intros H. unfold text_eqb. destruct (list_eq_dec ascii_dec (a :: b) (c :: d)); auto. congruence. Qed.
Lemma words_false c t : ~ In (lower_char c) (tx "kdx") ->
  text_eqb (lower (c :: t)) (tx "x,y,z") = false /\ startswith (lower (c :: t)) (tx "knot") = false /\ startswith (lower (c :: t)) (tx "degree") = false.
Proof.
  intros H. unfold startswith, lower. cbn [map]. simpl in H. repeat split; apply text_eqb_false; intros E; apply H; auto.
Qed.
Section ParserProofs.
  Variable float_of : text -> option R.
  Variable int_of : text -> option Z.
  Lemma floats_ok ts vs : Forall2 (fun s v => float_of s = Some v) ts vs -> floats float_of ts = Ok vs.
  Proof using. induction 1 as [|s v ts vs E H IH]; simpl; auto. rewrite E, IH. auto. Qed.
  Lemma parse_plain k m sp line c t : solid line -> line = c :: t -> ~ In (lower_char c) (tx "kdx") ->
    parse_line float_of int_of k m sp line = match m with
      | Points => if (length (split line) =? 3)%nat then do r <- floats float_of (split line); Ok (m, mkSpline (sp_points sp ++ [r]) (sp_knots sp) (sp_degree sp)) else Ok (m, sp)
      | Knots => do r <- floats float_of (map strip (filter (fun p => match strip p with [] => false | _ => true end) (split line)));
          Ok (m, mkSpline (sp_points sp) (sp_knots sp ++ r) (sp_degree sp))
      | Degree => match int_of line with None => Exn ValueError | Some d => Ok (m, mkSpline (sp_points sp) (sp_knots sp) (Some d)) end
      end.
  Proof using.
    intros Hs E Hc. unfold parse_line. rewrite (strip_solid line Hs). subst line. destruct (words_false c t Hc) as (-> & -> & ->). rewrite andb_false_r. auto.
  Qed.
  Lemma parse_points rows vals : Forall2 (fun r v => length r = 3%nat /\ Forall number_text r /\ Forall2 (fun s x => float_of s = Some x) r v) rows vals ->
    forall k sp rest, parse_lines float_of int_of k Points sp (map join rows ++ rest) =
      parse_lines float_of int_of (k + length rows) Points (mkSpline (sp_points sp ++ vals) (sp_knots sp) (sp_degree sp)) rest.
  Proof using.
    induction 1 as [|r v rows vals (L & N & V) H IH]; intros k sp rest.
    - simpl. rewrite Nat.add_0_r, app_nil_r. destruct sp; auto.
    - assert (Hn : r <> []) by (destruct r; simpl in L; [lia|discriminate]). destruct (join_first r Hn N) as (c & t & E & Hc).
      cbn [map app parse_lines]. rewrite (parse_plain k Points sp (join r) c t (join_solid r N) E Hc), split_join, L, (floats_ok r v V) by auto. cbn [Nat.eqb bind fst snd].
      rewrite IH. cbn [sp_points sp_knots sp_degree]. rewrite <- app_assoc. cbn [length app]. replace (S k + length rows)%nat with (k + S (length rows))%nat by lia. auto.
  Qed.
  Lemma filter_numbers l : Forall number_text l -> map strip (filter (fun p => match strip p with [] => false | _ => true end) l) = l.
  Proof using.
    induction 1 as [|a l Ha H IH]; simpl; auto. rewrite (strip_solid a (number_solid a Ha)). destruct a as [|c t]. destruct Ha as [Ha _]. congruence. simpl. rewrite IH, (strip_solid _ (number_solid _ Ha)). auto.
  Qed.
  Lemma read_written header rows vals knots kvals degree d :
    Forall2 (fun r v => length r = 3%nat /\ Forall number_text r /\ Forall2 (fun s x => float_of s = Some x) r v) rows vals ->
    Forall number_text knots -> Forall2 (fun s x => float_of s = Some x) knots kvals -> number_text degree -> int_of degree = Some d ->
    read_bspline float_of int_of (spline_lines header rows knots degree) = Ok (mkSpline vals kvals (Some d)).
  Proof using.
    intros HR HK VK HD VD. unfold read_bspline, spline_lines.
    assert (G : forall k, parse_lines float_of int_of k Points (mkSpline [] [] None) (map join rows ++ [tx "knots"; join knots; tx "degree"; degree]) = Ok (mkSpline vals kvals (Some d))).
    { intros k. rewrite (parse_points rows vals HR). cbn [sp_points sp_knots sp_degree app]. generalize (k + length rows)%nat. clear k. intros k.
      cbn [parse_lines].
      assert (PK : forall k sp, parse_line float_of int_of k Points sp (tx "knots") = Ok (Knots, sp)) by (intros [|k'] sp; reflexivity). rewrite PK. cbn [bind fst snd].
      assert (PD : forall k sp, parse_line float_of int_of k Knots sp (tx "degree") = Ok (Degree, sp)) by (intros [|k'] sp; reflexivity).
      assert (HDne := HD). destruct HDne as (N1 & _ & N2). destruct degree as [|dc dt] eqn:Ed; [congruence|]. rewrite <- Ed in *.
      assert (PV : forall k sp, parse_line float_of int_of k Degree sp degree = Ok (Degree, mkSpline (sp_points sp) (sp_knots sp) (Some d))).
      { intros k' sp. rewrite (parse_plain k' Degree sp degree dc dt (number_solid _ HD) Ed (N2 dc dt Ed)), VD. auto. }
      assert (PJ : parse_line float_of int_of (S k) Knots (mkSpline vals [] None) (join knots) = Ok (Knots, mkSpline vals kvals None)).
      { destruct knots as [|a l]. inversion VK; subst. reflexivity.
        destruct (join_first (a :: l) ltac:(discriminate) HK) as (c & t & E & Hc). rewrite (parse_plain (S k) Knots _ (join (a :: l)) c t (join_solid _ HK) E Hc).
        rewrite split_join, filter_numbers, (floats_ok _ kvals VK) by (auto; discriminate). auto. }
      rewrite PJ. cbn [bind fst snd]. rewrite PD. cbn [bind fst snd]. rewrite PV. auto. }
    destruct header; cbn [app]; [|apply G]. cbn [parse_lines].
    assert (PH : parse_line float_of int_of 0 Points (mkSpline [] [] None) (tx "x,y,z") = Ok (Points, mkSpline [] [] None)) by reflexivity. rewrite PH. cbn [bind fst snd]. apply G.
  Qed.
  Lemma parse_degree_none ls : forall k m sp sp', (forall l, In l ls -> startswith (lower (strip l)) (tx "degree") = false) -> m <> Degree ->
    parse_lines float_of int_of k m sp ls = Ok sp' -> sp_degree sp' = sp_degree sp.
  Proof using.
    induction ls as [|l ls IH]; intros k m sp sp' H Hm E; simpl in E. injection E as <-. auto.
    assert (Hl := H l (or_introl eq_refl)). destruct (parse_line float_of int_of k m sp l) as [[m1 sp1]|e] eqn:El; [|discriminate]. cbn [bind fst snd] in E.
    cut (m1 <> Degree /\ sp_degree sp1 = sp_degree sp). { intros [A B]. rewrite <- B. eapply IH; eauto. intros. apply H. right; auto. }
    unfold parse_line in El. destruct (match strip l with [] => true | _ => false end). injection El as <- <-. auto.
    destruct ((k =? 0)%nat && text_eqb (lower (strip l)) (tx "x,y,z")). injection El as <- <-. auto.
    destruct (startswith (lower (strip l)) (tx "knot")). injection El as <- <-. split; auto. discriminate.
    rewrite Hl in El. destruct m; [| |congruence].
    - destruct (length (split (strip l)) =? 3)%nat; [|injection El as <- <-; auto]. destruct (floats float_of (split (strip l))); [|discriminate]. cbn [bind] in El. injection El as <- <-. auto.
    - destruct (floats _ _); [|discriminate]. cbn [bind] in El. injection El as <- <-. auto.
  Qed.
End ParserProofs.
Lemma select_clusters labels centers pick X0 N l : picks pick -> select_points labels centers pick X0 N = Ok l ->
  forall a b, In a l -> In b l -> nth a labels O = nth b labels O -> a = b.
Proof.
  intros Hp. unfold select_points. set (reps := flat_map _ _). destruct (Nat.leb_spec N (length reps)) as [H|H]; [|discriminate]. intros [= <-] a b Ha Hb E. destruct (Hp reps N H) as (ix & N1 & L1 & B1 & EP). rewrite EP in *.
  assert (I : forall r, In r (map (fun j => nth j reps O) ix) -> In r reps). { intros r Hr. apply in_map_iff in Hr. destruct Hr as (k & <- & Hk). apply nth_In. auto. }
  apply I in Ha, Hb. apply in_flat_map in Ha, Hb. destruct Ha as (i & _ & Ha), Hb as (j & _ & Hb).
  assert (Ra := rep_spec labels centers X0 i a Ha). assert (Rb := rep_spec labels centers X0 j b Hb). destruct Ra as (_ & Ra & _), Rb as (_ & Rb & _).
  assert (i = j) by congruence. rewrite <- H0 in Hb. clear -Ha Hb. destruct (argmin _) as [z|]; [|contradiction]. simpl in Ha, Hb. destruct Ha as [Ha|[]], Hb as [Hb|[]]. congruence.
Qed.
Lemma far_spec ref y : ref <> [] -> (forall r, In r ref -> dist r y <= far ref y) /\ exists r, In r ref /\ far ref y = dist r y.
Proof.
  unfold far. induction ref as [|a ref IH]; intros Hn. congruence. simpl. rewrite norm2_vdiff. destruct ref as [|b ref].
  - simpl. rewrite Rmax_left. split. intros r [<-|[]]. lra. exists a. auto. unfold dist. apply sqrt_pos.
  - destruct (IH ltac:(discriminate)) as [I1 (r & I2 & I3)]. set (F := fold_right Rmax 0 (map (fun r => norm2 (vdiff r y)) (b :: ref))) in *. split.
    + intros q [<-|Hq]. apply Rmax_l. apply (Rle_trans _ F). auto. apply Rmax_r.
    + unfold Rmax. destruct (Rle_dec (dist a y) F). exists r. auto. exists a. auto.
Qed.
Lemma match_cluster_spec refs Y : refs <> [] -> exists ix, match_cluster refs Y = Ok ix /\
  Forall2 (fun i y => (i < length refs)%nat /\ forall j, (j < length refs)%nat -> far (nth i refs []) y <= far (nth j refs []) y) ix Y.
Proof.
  intros Hn. induction Y as [|y Y (ix & E & F)]. exists []. simpl; auto.
  unfold match_cluster in *. cbn [fold_right]. rewrite E. cbn [bind]. generalize (argmin_spec (map (fun r => far r y) refs)). destruct (argmin _) as [i|]; [|intros H; apply map_eq_nil in H; congruence].
  rewrite map_length. intros [Hi Hm]. exists (i :: ix). split; auto. constructor; auto. split; auto. intros j Hj. destruct (Hm j Hj) as [H _]. rewrite !(nth_map_lt _ _ []) in H by auto. auto.
Qed.
