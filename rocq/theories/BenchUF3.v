From Coq Require Import List Arith Bool Lia Reals Lra Psatz.
From Verif Require Import ListAux ProbModel NewtonModel BenchModel BenchSpec BenchBase BenchTrig BenchUF.
Import ListNotations.
Open Scope R_scope.

Lemma group_in a n i : In i (arange a n 3) -> (a <= i < n)%nat.
Proof. intros H. apply arange_in in H; [|lia]. destruct H as (k & -> & H). lia. Qed.
Lemma group_nonnil a n : (a < n)%nat -> arange a n 3 <> [].
Proof. intros H. apply (nonnil_in a). apply arange_in; [lia|]. exists 0%nat. lia. Qed.

Section Three.
  Variables (n : nat) (f : R -> R).
  Hypothesis Hn : (5 <= n)%nat.
  Hypothesis f_nonneg : forall a, 0 <= f a.
  Hypothesis f_zero : f 0 = 0.
  Lemma penalties3_value tgt x : length x = n ->
    exists p1 p2 p3, 0 <= p1 /\ 0 <= p2 /\ 0 <= p3 /\ penalties3 n f (minus_at tgt x) = Some (p1, p2, p3).
  Proof.
    intros Hx. unfold penalties3, uf_groups.
    rewrite !take_minus by (intros i Hi; apply group_in in Hi; lia).
    destruct (mean2_of_nonneg f f_nonneg (map (fun i => nth i x 0 - tgt i) (arange 3 n 3))) as (p1 & E1 & H1); [apply map_nonnil, group_nonnil; lia|].
    destruct (mean2_of_nonneg f f_nonneg (map (fun i => nth i x 0 - tgt i) (arange 4 n 3))) as (p2 & E2 & H2); [apply map_nonnil, group_nonnil; lia|].
    destruct (mean2_of_nonneg f f_nonneg (map (fun i => nth i x 0 - tgt i) (arange 2 n 3))) as (p3 & E3 & H3); [apply map_nonnil, group_nonnil; lia|].
    unfold mean2_of in *. rewrite E1, E2, E3. exists p1, p2, p3. auto.
  Qed.
  Definition point3 (s t : R) : list R := s :: t :: map (sine3 n s t) (seq 2 (n - 2)).
  Lemma point3_length s t : length (point3 s t) = n.
  Proof. unfold point3. cbn. rewrite map_length, seq_length. lia. Qed.
  Lemma point3_nth s t i : (2 <= i < n)%nat -> nth i (point3 s t) 0 = sine3 n s t i.
  Proof.
    intros H. unfold point3. destruct i as [|[|i]]; [lia|lia|]. cbn [nth].
    rewrite (nth_map_default _ _ _ 0%nat) by (rewrite seq_length; lia). rewrite seq_nth by lia. reflexivity.
  Qed.
  Lemma penalties3_point s t : penalties3 n f (minus_at (sine3 n s t) (point3 s t)) = Some (0, 0, 0).
  Proof.
    unfold penalties3, uf_groups. rewrite !take_minus by (rewrite point3_length; intros i Hi; apply group_in in Hi; lia).
    assert (H : forall a, (2 <= a < n)%nat -> mean2 (map f (map (fun i => nth i (point3 s t) 0 - sine3 n s t i) (arange a n 3))) = Some 0).
    { intros a Ha. apply (mean2_of_zero f f_zero); [apply map_nonnil, group_nonnil; lia|]. apply Forall_forall. intros b Hb. apply in_map_iff in Hb.
      destruct Hb as (i & <- & Hi). apply group_in in Hi. rewrite point3_nth by lia. ring. }
    rewrite !H by lia. reflexivity.
  Qed.
  Lemma point3_box b s t : 2 <= b -> 0 <= s <= 1 -> 0 <= t <= 1 -> in_box n 2 0 1 (- b) b (point3 s t).
  Proof.
    intros Hb Hs Ht. split; [apply point3_length|]. intros [|[|i]] Hi; [exact Hs|exact Ht|]. cbn [Nat.ltb Nat.leb]. rewrite point3_nth by lia.
    unfold sine3. match goal with |- context [sin ?a] => pose proof (SIN_bound a); set (c := sin a) in * end. nra.
  Qed.
End Three.

(** the sphere in the coordinates of the code *)
Definition sphere_pt (s t : R) : list R := [cos (0.5 * PI * s) * cos (0.5 * PI * t); cos (0.5 * PI * s) * sin (0.5 * PI * t); sin (0.5 * PI * s)].
Lemma half_pi_cos s : 0 <= s <= 1 -> 0 <= cos (0.5 * PI * s).
Proof. intros H. pose proof PI_gt_2. apply cos_ge_0; nra. Qed.
Lemma half_pi_sin s : 0 <= s <= 1 -> 0 <= sin (0.5 * PI * s).
Proof. intros H. pose proof PI_gt_2. apply sin_ge_0; nra. Qed.
Lemma sphere_pt_octant s t : 0 <= s <= 1 -> 0 <= t <= 1 -> octant (sphere_pt s t).
Proof.
  intros Hs Ht. pose proof (half_pi_cos s Hs). pose proof (half_pi_sin s Hs). pose proof (half_pi_cos t Ht). pose proof (half_pi_sin t Ht).
  do 3 eexists. split; [reflexivity|]. pose proof (sin2_cos2 (0.5 * PI * s)) as E1. pose proof (sin2_cos2 (0.5 * PI * t)) as E2. unfold Rsqr in *.
  set (a := cos (0.5 * PI * s)) in *. set (b := sin (0.5 * PI * s)) in *. set (c := cos (0.5 * PI * t)) in *. set (d := sin (0.5 * PI * t)) in *.
  repeat split; [apply Rmult_le_pos; auto|apply Rmult_le_pos; auto|auto|].
  transitivity (a * a * (d * d + c * c) + b * b); [ring|]. rewrite E2. lra.
Qed.
(** every angle of the first quadrant *)
Lemma quadrant a b : 0 <= a -> 0 <= b -> a * a + b * b = 1 -> exists t, 0 <= t <= 1 /\ cos (0.5 * PI * t) = a /\ sin (0.5 * PI * t) = b.
Proof.
  intros Ha Hb E. pose proof PI_gt_2. assert (Hr : -1 <= b <= 1) by nra. pose proof (asin_bound b) as Hab. assert (Hs : sin (asin b) = b) by (apply sin_asin; lra).
  assert (H0 : 0 <= asin b).
  { destruct (Rle_dec 0 (asin b)); auto. exfalso. assert (sin (asin b) < 0) by (apply sin_lt_0_var; lra). lra. }
  exists (2 * asin b / PI). assert (Ee : 0.5 * PI * (2 * asin b / PI) = asin b) by (replace 0.5 with (/ 2) by lra; field; lra). rewrite Ee.
  split; [split|split; auto].
  - apply Rmult_le_pos; [lra|]. apply Rlt_le, Rinv_0_lt_compat; lra.
  - apply Rmult_le_reg_r with PI; [lra|]. unfold Rdiv. rewrite Rmult_assoc, Rinv_l by lra. lra.
  - assert (0 <= cos (asin b)) by (apply cos_ge_0; lra). pose proof (sin2_cos2 (asin b)) as E2. unfold Rsqr in E2. rewrite Hs in E2. nra.
Qed.
Lemma sphere_coords u : octant u -> exists s t, 0 <= s <= 1 /\ 0 <= t <= 1 /\ u = sphere_pt s t.
Proof.
  intros (a & b & c & -> & Ha & Hb & Hc & E). set (r := sqrt (a * a + b * b)).
  assert (Hr : r * r = a * a + b * b) by (apply sqrt_sqrt; nra). assert (Hr0 : 0 <= r) by apply sqrt_pos.
  destruct (quadrant r c Hr0 Hc) as (s & Hs & E1 & E2); [lra|].
  destruct (Req_dec r 0) as [Z|Z].
  - exists s, 0. split; auto. split; [lra|]. unfold sphere_pt. rewrite E1, E2, Z. assert (a = 0) by nra. assert (b = 0) by nra. subst a b. f_equal; [ring|f_equal; ring].
  - destruct (quadrant (a / r) (b / r)) as (t & Ht & E3 & E4).
    + apply Rmult_le_pos; auto. apply Rlt_le, Rinv_0_lt_compat. lra.
    + apply Rmult_le_pos; auto. apply Rlt_le, Rinv_0_lt_compat. lra.
    + replace (a / r * (a / r) + b / r * (b / r)) with ((a * a + b * b) / (r * r)) by (field; auto). rewrite Hr. field. rewrite <- Hr. nra.
    + exists s, t. split; auto. split; auto. unfold sphere_pt. rewrite E1, E2, E3, E4. f_equal; [field; auto|f_equal; field; auto].
Qed.
Lemma octant_antichain u w : octant u -> octant w -> wdom w u -> w = u.
Proof.
  intros (a & b & c & -> & H) (a' & b' & c' & -> & H') Hw. apply wdom3 in Hw. f_equal; [|f_equal; [|f_equal]]; nra.
Qed.
Lemma sphere3_value n f x : (5 <= n)%nat -> (forall a, 0 <= f a) -> length x = n ->
  exists p1 p2 p3, 0 <= p1 /\ 0 <= p2 /\ 0 <= p3 /\
    sphere3 n f x = Some (zip_with Rplus (sphere_pt (nth 0 x 0) (nth 1 x 0)) [p1; p2; p3]).
Proof.
  intros Hn Hf Hx. unfold sphere3. rewrite !(nth_error_nth' x 0) by lia.
  destruct (penalties3_value n f Hn Hf (sine3 n (nth 0 x 0) (nth 1 x 0)) x Hx) as (p1 & p2 & p3 & H1 & H2 & H3 & E). rewrite E.
  exists p1, p2, p3. repeat split; auto.
Qed.
Lemma sphere3_point n f s t : (5 <= n)%nat -> f 0 = 0 -> sphere3 n f (point3 n s t) = Some (sphere_pt s t).
Proof.
  intros Hn Hf. unfold sphere3. cbn [point3 nth_error]. rewrite (penalties3_point n f Hn Hf). unfold sphere_pt. rewrite !Rplus_0_r. reflexivity.
Qed.
Lemma sphere3_front n f : (5 <= n)%nat -> (forall a, 0 <= f a) -> f 0 = 0 -> front (in_box n 2 0 1 (-2) 2) (sphere3 n f) octant.
Proof.
  intros Hn Hf Hz. apply front_intro; [| |apply octant_antichain].
  - intros x Hx. destruct (in_box_first _ _ _ _ _ _ x 0 Hx ltac:(lia) ltac:(lia)) as (_ & H0). destruct (in_box_first _ _ _ _ _ _ x 1 Hx ltac:(lia) ltac:(lia)) as (_ & H1).
    destruct (sphere3_value n f x Hn Hf (proj1 Hx)) as (p1 & p2 & p3 & G1 & G2 & G3 & E). eexists. split; [exact E|]. exists (sphere_pt (nth 0 x 0) (nth 1 x 0)).
    split; [apply sphere_pt_octant; auto|]. unfold sphere_pt. cbn. apply wdom3. lra.
  - intros u Hu. destruct (sphere_coords u Hu) as (s & t & Hs & Ht & ->). exists (point3 n s t). split; [apply point3_box; auto; lra|]. apply sphere3_point; auto.
Qed.
Lemma uf8_front_spec n : (5 <= n)%nat -> front (in_box n 2 0 1 (-2) 2) (uf8 n) octant.
Proof. intros H. apply sphere3_front; auto using sq_nonneg, sq_zero. Qed.
Lemma uf10_front_spec n : (5 <= n)%nat -> front (in_box n 2 0 1 (-2) 2) (uf10 n) octant.
Proof. intros H. apply sphere3_front; auto using wave3_nonneg, wave3_zero. Qed.

(** the front of UF9: two parts of the simplex *)
Definition uf9_set (u : list R) : Prop := exists a b c, u = [a; b; c] /\ simplex3 a b c /\ (4 * a <= 1 - c \/ 3 * (1 - c) <= 4 * a).
Lemma uf9_front_spec n : (5 <= n)%nat -> front (in_box n 2 0 1 (-2) 2) (uf9 n) uf9_set.
Proof.
  intros Hn. apply front_intro.
  - intros x Hx. destruct (in_box_first _ _ _ _ _ _ x 0 Hx ltac:(lia) ltac:(lia)) as (_ & H0). destruct (in_box_first _ _ _ _ _ _ x 1 Hx ltac:(lia) ltac:(lia)) as (_ & H1).
    unfold uf9. rewrite !(nth_error_nth' x 0) by (destruct Hx; lia). set (s := nth 0 x 0) in *. set (t := nth 1 x 0) in *.
    destruct (penalties3_value n sq Hn sq_nonneg (sine3 n s t) x (proj1 Hx)) as (p1 & p2 & p3 & G1 & G2 & G3 & E). rewrite E. eexists. split; [reflexivity|].
    set (a := Rmax 0 (1.1 * (1 - 4 * sq (2 * s - 1)))). assert (Ha0 : 0 <= a) by apply Rmax_l. assert (Ha1 : 1.1 * (1 - 4 * sq (2 * s - 1)) <= a) by apply Rmax_r. clearbody a. unfold sq in Ha1.
    assert (Hk : exists k, 0 <= k <= 1 /\ (4 * k <= 1 \/ 3 <= 4 * k) /\ 2 * k <= a + 2 * s /\ 2 * (1 - k) <= a - 2 * s + 2).
    { destruct (Rle_dec s (1/4)); [exists s; lra|]. destruct (Rle_dec (3/4) s); [exists s; lra|].
      destruct (Rle_dec s (1/2)); [exists (1/4)|exists (3/4)]; repeat split; try lra; nra. }
    destruct Hk as (k & Hk1 & Hk2 & Hk3 & Hk4). exists [k * t; (1 - k) * t; 1 - t]. split.
    + do 3 eexists. split; [reflexivity|]. split; [unfold simplex3; repeat split; nra|]. destruct Hk2; [left|right]; nra.
    + apply wdom3. repeat split; nra.
  - intros u (a & b & c & -> & (Ha & Hb & Hc & E) & Hk). destruct (Req_dec c 1) as [->|Hc1].
    + exists (point3 n 0 0). split; [apply point3_box; auto; lra|]. unfold uf9. cbn [point3 nth_error]. fold (point3 n 0 0). rewrite (penalties3_point n sq Hn sq_zero).
      f_equal. f_equal; [lra|f_equal; [lra|f_equal; lra]].
    + set (s := a / (1 - c)). assert (Es : s * (1 - c) = a) by (unfold s; field; lra).
      assert (Hs : 0 <= s) by (apply Rmult_le_pos; auto; apply Rlt_le, Rinv_0_lt_compat; lra).
      assert (Hs1 : s <= 1) by (apply Rmult_le_reg_r with (1 - c); lra).
      assert (Hs2 : 4 * s <= 1 \/ 3 <= 4 * s) by (destruct Hk; [left|right]; apply Rmult_le_reg_r with (1 - c); lra).
      exists (point3 n s (1 - c)). split; [apply point3_box; auto; lra|]. unfold uf9. cbn [point3 nth_error]. fold (point3 n s (1 - c)). rewrite (penalties3_point n sq Hn sq_zero).
      rewrite Rmax_left by (unfold sq; nra). f_equal. f_equal; [lra|f_equal; [lra|f_equal; lra]].
  - intros u w (a & b & c & -> & H & _) (a' & b' & c' & -> & H' & _) Hw. apply wdom3 in Hw. unfold simplex3 in *. f_equal; [lra|f_equal; [lra|f_equal; lra]].
Qed.
