From Coq Require Import List Arith Bool Lia Reals Lra Psatz.
From Verif Require Import ListAux ProbModel NewtonModel BenchModel BenchSpec BenchBase ConvModel ConvSpec.
Import ListNotations.
Open Scope R_scope.

Lemma dist2_sqdist x a : dist2 x a = sqdist x a.
Proof.
  unfold dist2. revert a. induction x as [|u x IH]; intros [|v a]; try reflexivity. cbn [zip_with vsum fold_right sqdist] in *. rewrite <- IH. unfold sq, vsum. ring.
Qed.
Lemma sqdist_nonneg x a : 0 <= sqdist x a.
Proof. revert a. induction x as [|u x IH]; intros [|v a]; cbn [sqdist]; try apply Rle_refl. specialize (IH a). pose proof (pow2_ge_0 (u - v)). lra. Qed.
Lemma pow2_le0 a b : (a - b) ^ 2 <= 0 -> a = b.
Proof. intros H. destruct (Req_EM_T (a - b) 0) as [E|E]; [lra|]. assert (0 < (a - b) ^ 2) by (replace ((a - b) ^ 2) with (Rsqr (a - b)) by (unfold Rsqr; ring); apply Rlt_0_sqr; auto). lra. Qed.
Lemma in_box3 lo hi p q r : in_box 3 3 lo hi 0 0 [p; q; r] <-> lo <= p <= hi /\ lo <= q <= hi /\ lo <= r <= hi.
Proof.
  split.
  - intros (_ & H). pose proof (H 0%nat ltac:(lia)). pose proof (H 1%nat ltac:(lia)). pose proof (H 2%nat ltac:(lia)). auto.
  - intros (H1 & H2 & H3). split; auto. intros [|[|[|i]]] Hi; auto. lia.
Qed.
Lemma in_box4 lo hi p q r s : in_box 4 4 lo hi 0 0 [p; q; r; s] <-> lo <= p <= hi /\ lo <= q <= hi /\ lo <= r <= hi /\ lo <= s <= hi.
Proof.
  split.
  - intros (_ & H). pose proof (H 0%nat ltac:(lia)). pose proof (H 1%nat ltac:(lia)). pose proof (H 2%nat ltac:(lia)). pose proof (H 3%nat ltac:(lia)). auto.
  - intros (H1 & H2 & H3 & H4). split; auto. intros [|[|[|[|i]]]] Hi; auto. lia.
Qed.
Lemma wdom4 a b c d a' b' c' d' : wdom [a; b; c; d] [a'; b'; c'; d'] <-> a <= a' /\ b <= b' /\ c <= c' /\ d <= d'.
Proof.
  unfold wdom. split.
  - intros H. inversion H as [|? ? ? ? H1 T1]; subst. inversion T1 as [|? ? ? ? H2 T2]; subst. inversion T2 as [|? ? ? ? H3 T3]; subst. inversion T3; subst; auto.
  - intros (H1 & H2 & H3 & H4). repeat (apply Forall2_cons; auto).
Qed.
Lemma length3 (x : list R) : length x = 3%nat -> exists p q r, x = [p; q; r].
Proof. destruct x as [|p [|q [|r [|]]]]; try discriminate. eauto. Qed.
Lemma length4 (x : list R) : length x = 4%nat -> exists p q r s, x = [p; q; r; s].
Proof. destruct x as [|p [|q [|r [|s [|]]]]]; try discriminate. eauto 6. Qed.
Lemma weights3 a b c : weights [a; b; c] <-> 0 <= a /\ 0 <= b /\ 0 <= c /\ a + b + c = 1.
Proof.
  unfold weights. cbn. split.
  - intros (H & E). inversion H as [|? ? H1 T1]; subst. inversion T1 as [|? ? H2 T2]; subst. inversion T2; subst. repeat split; auto. lra.
  - intros (H1 & H2 & H3 & E). split; [repeat (apply Forall_cons; auto)|lra].
Qed.
Lemma weights4 a b c d : weights [a; b; c; d] <-> 0 <= a /\ 0 <= b /\ 0 <= c /\ 0 <= d /\ a + b + c + d = 1.
Proof.
  unfold weights. cbn. split.
  - intros (H & E). inversion H as [|? ? H1 T1]; subst. inversion T1 as [|? ? H2 T2]; subst. inversion T2 as [|? ? H3 T3]; subst. inversion T3; subst. repeat split; auto. lra.
  - intros (H1 & H2 & H3 & H4 & E). split; [repeat (apply Forall_cons; auto)|lra].
Qed.

(** ** CONV3 *)
Definition clip1 (a : R) : R := Rmax (-1) (Rmin 1 a).
Lemma clip1_range a : -1 <= clip1 a <= 1.
Proof. unfold clip1, Rmax, Rmin. repeat destruct Rle_dec; lra. Qed.
Lemma clip1_mono a b : a <= b -> clip1 a <= clip1 b.
Proof. unfold clip1, Rmax, Rmin. repeat destruct Rle_dec; lra. Qed.
Lemma clip1_near a c : -1 <= c <= 1 -> (clip1 a - c) ^ 2 <= (a - c) ^ 2.
Proof. intros H. unfold clip1, Rmax, Rmin. repeat destruct Rle_dec; nra. Qed.
Lemma triangle_nearer p q r : exists s t, -1 <= s /\ s <= t /\ t <= 1 /\
  forall c d, -1 <= c -> c <= d -> d <= 1 -> (s - c) ^ 2 + ((s - c) ^ 2 + ((t - d) ^ 2 + 0)) <= (p - c) ^ 2 + ((q - c) ^ 2 + ((r - d) ^ 2 + 0)).
Proof.
  set (m := (p + q) / 2).
  assert (Hm : forall c, 2 * (m - c) ^ 2 <= (p - c) ^ 2 + (q - c) ^ 2) by (intros c; unfold m; pose proof (pow2_ge_0 (p - q)); nra).
  destruct (Rle_dec m r) as [Hle|Hgt].
  - exists (clip1 m), (clip1 r). pose proof (clip1_range m). pose proof (clip1_range r). pose proof (clip1_mono _ _ Hle).
    split; [lra|]. split; [lra|]. split; [lra|]. intros c d H2 H3 H4. pose proof (clip1_near m c). pose proof (clip1_near r d). specialize (Hm c). lra.
  - set (k := (2 * m + r) / 3). exists (clip1 k), (clip1 k). pose proof (clip1_range k).
    split; [lra|]. split; [lra|]. split; [lra|]. intros c d H2 H3 H4. pose proof (clip1_near k c). pose proof (clip1_near k d). specialize (Hm c).
    assert (2 * (k - c) ^ 2 + (k - d) ^ 2 <= 2 * (m - c) ^ 2 + (r - d) ^ 2); [|lra].
    set (e := (m - r) / 3). assert (He : 0 <= e) by (unfold e; lra). assert (Em : m = k + e) by (unfold k, e; field). assert (Er : r = k - 2 * e) by (unfold k, e; field). clearbody k e m. rewrite Em, Er. nra.
Qed.
Lemma triangle_in s t : -1 <= s -> s <= t -> t <= 1 -> triangle [s; s; t].
Proof.
  intros H1 H2 H3. exists ((1 - t) / 2), ((s + 1) / 2), ((t - s) / 2). split; [apply weights3; lra|]. repeat (apply (f_equal2 (@cons R)); [field|]). reflexivity.
Qed.
Lemma triangle_box lo hi x : lo <= -1 -> 1 <= hi -> triangle x -> in_box 3 3 lo hi 0 0 x.
Proof. intros Hl Hh (a & b & c & Hw & ->). apply weights3 in Hw. apply in_box3. lra. Qed.
Lemma conv3_some p q r : conv3 [p; q; r] = Some (map (sqdist [p; q; r]) corners3).
Proof. unfold conv3. cbn [length Nat.eqb]. f_equal. apply map_ext. apply dist2_sqdist. Qed.
Lemma conv3_front_lemma lo hi : lo <= -1 -> 1 <= hi -> front (in_box 3 3 lo hi 0 0) conv3 (distances triangle corners3).
Proof.
  intros Hl Hh. apply front_intro.
  - intros x Hx. destruct (length3 x (proj1 Hx)) as (p & q & r & ->). rewrite conv3_some. eexists. split; [reflexivity|].
    destruct (triangle_nearer p q r) as (s & t & H1 & H2 & H3 & H). exists (map (sqdist [s; s; t]) corners3).
    split; [exists [s; s; t]; split; auto; apply triangle_in; auto|]. cbn [corners3 map sqdist]. apply wdom3. repeat split; apply H; lra.
  - intros u (x & Hx & ->). exists x. split; [apply triangle_box; auto|]. destruct Hx as (a & b & c & _ & ->). apply conv3_some.
  - intros u w (x & (a & b & c & Hw & ->) & ->) (y & (a' & b' & c' & Hw' & ->) & ->) Hd. apply weights3 in Hw. apply weights3 in Hw'.
    cbn [corners3 map sqdist] in Hd. apply wdom3 in Hd. destruct Hd as (D1 & D2 & D3). destruct Hw as (P1 & P2 & P3 & PE). destruct Hw' as (_ & _ & _ & QE).
    set (s := - a + b - c) in *. set (t := - a + b + c) in *. set (s' := - a' + b' - c') in *. set (t' := - a' + b' + c') in *.
    assert (K : 2 * (s' - s) ^ 2 + (t' - t) ^ 2 <= 0).
    { apply (Rmult_le_compat_l a) in D1; auto. apply (Rmult_le_compat_l b) in D2; auto. apply (Rmult_le_compat_l c) in D3; auto.
      assert (Ec : c = 1 - a - b) by lra. assert (Ec' : c' = 1 - a' - b') by lra. unfold s, t, s', t' in *. rewrite Ec, Ec' in *. nra. }
    pose proof (pow2_ge_0 (s' - s)). pose proof (pow2_ge_0 (t' - t)).
    assert (Es : s' = s) by (apply pow2_le0; lra). assert (Et : t' = t) by (apply pow2_le0; lra). rewrite Es, Et. reflexivity.
Qed.

(** ** CONV4 *)
Definition posp (a : R) : R := (a + Rabs a) / 2.
Lemma posp_nonneg a : 0 <= posp a.
Proof. unfold posp, Rabs. destruct Rcase_abs; lra. Qed.
Lemma posp_ge a : a <= posp a.
Proof. unfold posp, Rabs. destruct Rcase_abs; lra. Qed.
Lemma posp_self a : posp a * (posp a - a) = 0.
Proof. unfold posp, Rabs. destruct Rcase_abs; lra. Qed.
Lemma posp_neg a : a <= 0 -> posp a = 0.
Proof. unfold posp, Rabs. destruct Rcase_abs; lra. Qed.
Lemma simplex_nearer p q r s : exists a b c d, weights [a; b; c; d] /\
  sqdist [a; b; c; d] [1; 0; 0; 0] <= sqdist [p; q; r; s] [1; 0; 0; 0] /\
  sqdist [a; b; c; d] [0; 1; 0; 0] <= sqdist [p; q; r; s] [0; 1; 0; 0] /\
  sqdist [a; b; c; d] [0; 0; 1; 0] <= sqdist [p; q; r; s] [0; 0; 1; 0] /\
  sqdist [a; b; c; d] [0; 0; 0; 1] <= sqdist [p; q; r; s] [0; 0; 0; 1].
Proof.
  set (phi := fun t => posp (p - t) + posp (q - t) + posp (r - t) + posp (s - t) - 1).
  assert (Hc : continuity phi).
  { assert (Hp : forall a, continuity (fun t => posp (a - t))).
    { intros a t. unfold posp. apply continuity_pt_mult; [|apply continuity_pt_const; intro; auto].
      assert (Hd : continuity_pt (fun t => a - t) t) by (apply continuity_pt_minus; [apply continuity_pt_const; intro; auto|apply derivable_continuous_pt, derivable_pt_id]).
      apply continuity_pt_plus; auto. apply (continuity_pt_comp (fun t => a - t) Rabs); auto. apply Rcontinuity_abs. }
    unfold phi. repeat (first [apply continuity_minus | apply continuity_plus]); try apply Hp. apply continuity_const. intro; auto. }
  set (lo := p - 1). set (hi := Rmax (Rmax p q) (Rmax r s)).
  assert (Hhi : p <= hi /\ q <= hi /\ r <= hi /\ s <= hi) by (unfold hi, Rmax; repeat destruct Rle_dec; lra).
  assert (L : 0 <= phi lo).
  { unfold phi, lo. pose proof (posp_ge (p - (p - 1))). pose proof (posp_nonneg (q - (p - 1))). pose proof (posp_nonneg (r - (p - 1))). pose proof (posp_nonneg (s - (p - 1))). lra. }
  assert (Hh : phi hi <= 0) by (unfold phi; rewrite !posp_neg by lra; lra).
  destruct (IVT_cor phi lo hi Hc) as (t & _ & Et); [unfold lo; lra|nra|].
  unfold phi in Et. exists (posp (p - t)), (posp (q - t)), (posp (r - t)), (posp (s - t)).
  split; [apply weights4; repeat split; try apply posp_nonneg; lra|].
  pose proof (posp_ge (p - t)) as G1. pose proof (posp_ge (q - t)) as G2. pose proof (posp_ge (r - t)) as G3. pose proof (posp_ge (s - t)) as G4.
  pose proof (posp_self (p - t)) as S1. pose proof (posp_self (q - t)) as S2. pose proof (posp_self (r - t)) as S3. pose proof (posp_self (s - t)) as S4.
  set (a := posp (p - t)) in *. set (b := posp (q - t)) in *. set (c := posp (r - t)) in *. set (d := posp (s - t)) in *.
  assert (Z : a * (p - a) + b * (q - b) + c * (r - c) + d * (s - d) = t).
  { replace t with ((a + b + c + d) * t) by (replace (a + b + c + d) with 1 by lra; ring). lra. }
  pose proof (pow2_ge_0 (p - a)). pose proof (pow2_ge_0 (q - b)). pose proof (pow2_ge_0 (r - c)). pose proof (pow2_ge_0 (s - d)).
  cbn [sqdist]. repeat split; nra.
Qed.
Lemma eye4 : eye 4 = corners4.
Proof. reflexivity. Qed.
Lemma conv4_some p q r s : conv4 [p; q; r; s] = Some (map (sqdist [p; q; r; s]) corners4).
Proof. unfold conv4. rewrite eye4. cbn [length Nat.eqb]. f_equal. apply map_ext. apply dist2_sqdist. Qed.
Lemma tetra_antichain x y : tetrahedron x -> tetrahedron y -> wdom (map (sqdist y) corners4) (map (sqdist x) corners4) -> y = x.
Proof.
  intros (Lx & Hx) (Ly & Hy). destruct (length4 x Lx) as (a & b & c & d & ->). destruct (length4 y Ly) as (a' & b' & c' & d' & ->).
  apply weights4 in Hx. apply weights4 in Hy. intros Hd. cbn [corners4 map sqdist] in Hd. apply wdom4 in Hd.
  destruct Hd as (D1 & D2 & D3 & D4). destruct Hx as (P1 & P2 & P3 & P4 & PE).
  assert (K : (a' - a) ^ 2 + (b' - b) ^ 2 + (c' - c) ^ 2 + (d' - d) ^ 2 <= 0).
  { apply (Rmult_le_compat_l a) in D1; auto. apply (Rmult_le_compat_l b) in D2; auto. apply (Rmult_le_compat_l c) in D3; auto. apply (Rmult_le_compat_l d) in D4; auto.
    assert (E : d = 1 - a - b - c) by lra. assert (E' : d' = 1 - a' - b' - c') by lra. rewrite E, E' in *. nra. }
  pose proof (pow2_ge_0 (a' - a)). pose proof (pow2_ge_0 (b' - b)). pose proof (pow2_ge_0 (c' - c)). pose proof (pow2_ge_0 (d' - d)).
  rewrite (pow2_le0 a' a), (pow2_le0 b' b), (pow2_le0 c' c), (pow2_le0 d' d) by lra. reflexivity.
Qed.
Lemma conv4_front_lemma lo hi : lo <= 0 -> 1 <= hi -> front (in_box 4 4 lo hi 0 0) conv4 (distances tetrahedron corners4).
Proof.
  intros Hl Hh. apply front_intro.
  - intros x Hx. destruct (length4 x (proj1 Hx)) as (p & q & r & s & ->). rewrite conv4_some. eexists. split; [reflexivity|].
    destruct (simplex_nearer p q r s) as (a & b & c & d & Hw & H1 & H2 & H3 & H4). exists (map (sqdist [a; b; c; d]) corners4).
    split; [exists [a; b; c; d]; split; auto; split; auto|]. cbn [corners4 map]. apply wdom4. auto.
  - intros u (x & (Lx & Hx) & ->). destruct (length4 x Lx) as (a & b & c & d & ->). exists [a; b; c; d]. split; [apply weights4 in Hx; apply in_box4; lra|]. apply conv4_some.
  - intros u w (x & Hx & ->) (y & Hy & ->) Hd. apply (tetra_antichain x y Hx Hy) in Hd. subst. reflexivity.
Qed.

(** ** CONV4_2F *)
Lemma not_corner4 a b c d : not_corner [a; b; c; d] <-> a < 1 /\ b < 1 /\ c < 1 /\ d < 1.
Proof.
  unfold not_corner. split.
  - intros H. inversion H as [|? ? H1 T1]; subst. inversion T1 as [|? ? H2 T2]; subst. inversion T2 as [|? ? H3 T3]; subst. inversion T3; subst; auto.
  - intros (H1 & H2 & H3 & H4). repeat (apply Forall_cons; auto).
Qed.
Lemma conv4_2f_pos p q r s : ~ (p < 0 /\ q < 0 /\ r < 0 /\ s < 0) -> conv4_2f [p; q; r; s] = Some (map (sqdist [p; q; r; s]) corners4).
Proof.
  intros H. unfold conv4_2f. rewrite eye4. cbn [length Nat.eqb]. f_equal. replace (forallb _ _) with false.
  - apply map_ext. apply dist2_sqdist.
  - symmetry. cbn [forallb]. destruct (rltb p 0) eqn:E1; auto. destruct (rltb q 0) eqn:E2; auto. destruct (rltb r 0) eqn:E3; auto. destruct (rltb s 0) eqn:E4; auto.
    rewrite rltb_true in *. tauto.
Qed.
Definition moved4 (x : list R) : list R := map (fun p => fst p + snd p) (combine (map (sqdist x) corners4) shift7).
Lemma conv4_2f_neg p q r s : p < 0 -> q < 0 -> r < 0 -> s < 0 -> conv4_2f [p; q; r; s] = Some (moved4 [p + 1; q + 1; r + 1; s + 1]).
Proof.
  intros H1 H2 H3 H4. unfold conv4_2f. rewrite eye4. cbn [length Nat.eqb]. f_equal. replace (forallb _ _) with true.
  - unfold moved4. cbn [corners4 map zip_with deltay combine shift7 fst snd]. rewrite !dist2_sqdist. repeat (apply (f_equal2 (@cons R)); [cbn [sqdist]; lra|]). reflexivity.
  - symmetry. cbn [forallb]. rewrite (proj2 (rltb_true p 0)), (proj2 (rltb_true q 0)), (proj2 (rltb_true r 0)), (proj2 (rltb_true s 0)); auto.
Qed.
Lemma moved4_wdom a b c d a' b' c' d' :
  wdom (moved4 [a; b; c; d]) (moved4 [a'; b'; c'; d']) <-> wdom (map (sqdist [a; b; c; d]) corners4) (map (sqdist [a'; b'; c'; d']) corners4).
Proof. unfold moved4. cbn [corners4 map combine shift7 fst snd]. rewrite !wdom4. lra. Qed.
(** a point other than a corner that is as near as the projection *)
Lemma open_nearer p q r s : p < 1 -> q < 1 -> r < 1 -> s < 1 -> exists a b c d, weights [a; b; c; d] /\ not_corner [a; b; c; d] /\
  wdom (map (sqdist [a; b; c; d]) corners4) (map (sqdist [p; q; r; s]) corners4).
Proof.
  intros Hp Hq Hr Hs. destruct (simplex_nearer p q r s) as (a & b & c & d & Hw & H1 & H2 & H3 & H4). apply weights4 in Hw. cbn [sqdist] in H1, H2, H3, H4.
  cbn [corners4 map sqdist].
  assert (Hd : forall e, 0 < e -> exists k, 0 < k /\ k <= 1/2 /\ k ^ 2 <= e ^ 2).
  { intros e He. exists (Rmin (1/2) e). unfold Rmin. destruct Rle_dec; nra. }
  destruct (Rlt_dec a 1) as [A|A]; [destruct (Rlt_dec b 1) as [B|B]; [destruct (Rlt_dec c 1) as [C|C]; [destruct (Rlt_dec d 1) as [D|D]|]|]|].
  - exists a, b, c, d. split; [apply weights4; auto|]. split; [apply not_corner4; auto|]. apply wdom4. auto.
  - assert (a = 0) by lra. assert (b = 0) by lra. assert (c = 0) by lra. assert (d = 1) by lra. subst. destruct (Hd (1 - s)) as (k & K1 & K2 & K3); [lra|].
    exists (k/4), (k/4), (k/4), (1 - 3 * k / 4). split; [apply weights4; lra|]. split; [apply not_corner4; lra|]. apply wdom4. repeat split; nra.
  - assert (a = 0) by lra. assert (b = 0) by lra. assert (c = 1) by lra. assert (d = 0) by lra. subst. destruct (Hd (1 - r)) as (k & K1 & K2 & K3); [lra|].
    exists (k/4), (k/4), (1 - 3 * k / 4), (k/4). split; [apply weights4; lra|]. split; [apply not_corner4; lra|]. apply wdom4. repeat split; nra.
  - assert (a = 0) by lra. assert (b = 1) by lra. assert (c = 0) by lra. assert (d = 0) by lra. subst. destruct (Hd (1 - q)) as (k & K1 & K2 & K3); [lra|].
    exists (k/4), (1 - 3 * k / 4), (k/4), (k/4). split; [apply weights4; lra|]. split; [apply not_corner4; lra|]. apply wdom4. repeat split; nra.
  - assert (a = 1) by lra. assert (b = 0) by lra. assert (c = 0) by lra. assert (d = 0) by lra. subst. destruct (Hd (1 - p)) as (k & K1 & K2 & K3); [lra|].
    exists (1 - 3 * k / 4), (k/4), (k/4), (k/4). split; [apply weights4; lra|]. split; [apply not_corner4; lra|]. apply wdom4. repeat split; nra.
Qed.
Lemma moved_moved4 D u : moved shift7 (distances D corners4) u <-> exists x, D x /\ u = moved4 x.
Proof. split; [intros (v & (x & Hx & ->) & ->); eauto|]. intros (x & Hx & ->). eexists. split; [exists x; split; eauto|reflexivity]. Qed.
Lemma conv4_2f_front_lemma lo hi : lo <= -1 -> 1 <= hi -> front (in_box 4 4 lo hi 0 0) conv4_2f front2f.
Proof.
  intros Hl Hh. apply front_intro.
  - intros x Hx. destruct (length4 x (proj1 Hx)) as (p & q & r & s & ->).
    destruct (Rlt_dec p 0) as [P|P]; [destruct (Rlt_dec q 0) as [Q|Q]; [destruct (Rlt_dec r 0) as [Rr|Rr]; [destruct (Rlt_dec s 0) as [S|S]|]|]|].
    1:{ rewrite conv4_2f_neg by auto. eexists. split; [reflexivity|]. destruct (open_nearer (p + 1) (q + 1) (r + 1) (s + 1)) as (a & b & c & d & Hw & Hn & H); try lra.
        exists (moved4 [a; b; c; d]). split; [right; apply moved_moved4; exists [a; b; c; d]; split; auto; split; auto; split; auto|]. apply moved4_wdom; auto. }
    all: rewrite conv4_2f_pos by tauto; eexists; split; [reflexivity|]; destruct (simplex_nearer p q r s) as (a & b & c & d & Hw & H1 & H2 & H3 & H4);
      exists (map (sqdist [a; b; c; d]) corners4); split; [left; exists [a; b; c; d]; split; auto; split; auto|]; cbn [corners4 map]; apply wdom4; auto.
  - intros u [(x & (Lx & Hx) & ->)|Hu].
    + destruct (length4 x Lx) as (a & b & c & d & ->). apply weights4 in Hx. exists [a; b; c; d]. split; [apply in_box4; lra|]. apply conv4_2f_pos. lra.
    + apply moved_moved4 in Hu. destruct Hu as (x & ((Lx & Hx) & Hn) & ->). destruct (length4 x Lx) as (a & b & c & d & ->). apply weights4 in Hx. apply not_corner4 in Hn.
      exists [a - 1; b - 1; c - 1; d - 1]. split; [apply in_box4; lra|]. rewrite conv4_2f_neg by lra. f_equal. f_equal. repeat (apply (f_equal2 (@cons R)); [ring|]). reflexivity.
  - intros u w [(x & Hx & ->)|Hu] [(y & Hy & ->)|Hy] Hd.
    + apply (tetra_antichain x y Hx Hy) in Hd. subst. reflexivity.
    + exfalso. apply moved_moved4 in Hy. destruct Hy as (y & ((Ly & Hy) & _) & ->). destruct Hx as (Lx & Hx).
      destruct (length4 x Lx) as (a & b & c & d & ->). destruct (length4 y Ly) as (a' & b' & c' & d' & ->). apply weights4 in Hx. apply weights4 in Hy.
      unfold moved4 in Hd. cbn [corners4 map combine shift7 fst snd sqdist] in Hd. apply wdom4 in Hd. destruct Hd as (_ & _ & _ & Hd). nra.
    + exfalso. apply moved_moved4 in Hu. destruct Hu as (x & ((Lx & Hx) & _) & ->). destruct Hy as (Ly & Hy).
      destruct (length4 x Lx) as (a & b & c & d & ->). destruct (length4 y Ly) as (a' & b' & c' & d' & ->). apply weights4 in Hx. apply weights4 in Hy.
      unfold moved4 in Hd. cbn [corners4 map combine shift7 fst snd sqdist] in Hd. apply wdom4 in Hd. destruct Hd as (Hd & _). nra.
    + apply moved_moved4 in Hu. apply moved_moved4 in Hy. destruct Hu as (x & (Hx & _) & ->). destruct Hy as (y & (Hy & _) & ->). f_equal. apply tetra_antichain; auto.
      destruct Hx as (Lx & _). destruct Hy as (Ly & _).
      destruct (length4 x Lx) as (a & b & c & d & ->). destruct (length4 y Ly) as (a' & b' & c' & d' & ->). apply moved4_wdom; auto.
Qed.
