(** Property theorems: further examples and scripts. *)
From Coq Require Import Ascii String List Arith Bool Reals ZArith Lia Lra.
From Verif Require Import Exn ProbModel ExModel ExProof Ex2Model BenchSpec Ex2Spec Ex2Proof.
Import ListNotations.
Open Scope R_scope.

(** * C150 *)
(** the values belong to the box with the nearest centre: signed distances to its faces if the
    point is inside, otherwise by how far it is outside; all are at most 0 exactly inside *)
Theorem C150_nearest : forall x centers radii, Forall (fun c => length c = length x) centers -> Forall (fun h => length h = length x) radii -> length radii = length centers -> centers <> [] ->
  exists i c h g, nth_error centers i = Some c /\ nth_error radii i = Some h /\ (forall j c', nth_error centers j = Some c' -> dist x c <= dist x c') /\
  union_box x centers radii = Ok g /\ length g = length x /\
  (Forall (fun a => a <= 0) g <-> in_boxc x c h) /\
  (in_boxc x c h -> forall j, (j < length x)%nat -> nth j g 0 = Rabs (nth j x 0 - nth j c 0) - nth j h 0) /\
  (~ in_boxc x c h -> forall j, (j < length x)%nat -> nth j g 0 = Rmax (Rabs (nth j x 0 - nth j c 0) - nth j h 0) 0).
Proof. exact union_box_eq. Qed.
Print Assumptions C150_nearest.
(** so a point that satisfies the constraint is in the union of the boxes *)
Theorem C150_sound : forall x centers radii g, Forall (fun c => length c = length x) centers -> Forall (fun h => length h = length x) radii -> length radii = length centers ->
  union_box x centers radii = Ok g -> Forall (fun a => a <= 0) g ->
  exists i c h, nth_error centers i = Some c /\ nth_error radii i = Some h /\ in_boxc x c h.
Proof.
  intros x centers radii g Hc Hr Hl E Hg. destruct (list_eq_dec (list_eq_dec Req_EM_T) centers []) as [->|Hn]. discriminate.
  destruct (union_box_eq x centers radii Hc Hr Hl Hn) as (i & c & h & g' & H1 & H2 & _ & E' & _ & H3 & _). rewrite E in E'. injection E' as <-. exists i, c, h. tauto.
Qed.
Print Assumptions C150_sound.
(** for intervals of equal lengths also conversely *)
Theorem C150_complete_partial : forall x cs h g, union_box [x] (map (fun c => [c]) cs) (map (fun _ => [h]) cs) = Ok g ->
  (Forall (fun a => a <= 0) g <-> exists c, In c cs /\ Rabs (x - c) <= h).
Proof.
  intros x cs h g E. assert (Hn : map (fun c : R => [c]) cs <> []) by (intros H; rewrite H in E; discriminate).
  destruct (union_box_eq [x] (map (fun c => [c]) cs) (map (fun _ => [h]) cs)) as (i & c & h' & g' & H1 & H2 & D & E' & _ & B & _); auto.
  { apply Forall_forall. intros c Hc. apply in_map_iff in Hc. destruct Hc as (a & <- & _). auto. }
  { apply Forall_forall. intros c Hc. apply in_map_iff in Hc. destruct Hc as (a & <- & _). auto. }
  { rewrite !map_length. auto. }
  rewrite E in E'. injection E' as <-. rewrite B.
  assert (C : exists a, c = [a] /\ In a cs). { apply nth_error_In in H1. apply in_map_iff in H1. destruct H1 as (a & <- & Ha). eauto. } destruct C as (a & -> & Ha).
  assert (h' = [h]) by (apply nth_error_In in H2; apply in_map_iff in H2; destruct H2 as (b & <- & _); auto). subst h'.
  assert (S : forall b, dist [x] [b] = Rabs (x - b)) by (intros b; unfold dist; simpl; rewrite Rplus_0_r; apply sqrt_Rsqr_abs).
  unfold in_boxc. simpl. split.
  - intros H. exists a. split; auto. apply (H O). lia.
  - intros (b & Hb & Hx) [|j] Hj; [|lia]. apply In_nth_error in Hb. destruct Hb as (k & Hk). specialize (D k [b] (map_nth_error (fun c => [c]) _ _ Hk)). rewrite !S in D. lra.
Qed.
Print Assumptions C150_complete_partial.
(** in general a point of the union may violate the constraint *)
Theorem C150_complete_refuted : exists x centers radii i c h g, nth_error centers i = Some c /\ nth_error radii i = Some h /\ in_boxc x c h /\
  length centers = length radii /\ union_box x centers radii = Ok g /\ ~ Forall (fun a => a <= 0) g.
Proof.
  exists [2], [[0]; [3]], [[3]; [/ 10]], O, [0], [3].
  destruct (union_box_eq [2] [[0]; [3]] [[3]; [/ 10]]) as (i & c & h & g & H1 & H2 & D & E & _ & B & _); auto. discriminate.
  exists g. split; auto. split; auto. split. { intros [|j] Hj; simpl in *; [|lia]. unfold Rabs. destruct (Rcase_abs _); lra. } split; auto. split; auto. rewrite B.
  destruct i as [|[|[|i]]]; simpl in H1, H2; try discriminate; injection H1 as <-; injection H2 as <-.
  - exfalso. specialize (D 1%nat [3] eq_refl). unfold dist in D. simpl in D. apply sqrt_le_0 in D; lra.
  - intros H. specialize (H O ltac:(simpl; lia)). simpl in H. unfold Rabs in H. destruct (Rcase_abs _); lra.
Qed.
Print Assumptions C150_complete_refuted.
Example C150_meets : Forall (fun c => length c = length [1; 2]) [[0; 0]; [1; 1]] /\ Forall (fun h => length h = length [1; 2]) [[1; 1]; [1; 2]] /\ [[0; 0]; [1; 1]] <> [] /\ in_boxc [1; 2] [1; 1] [1; 2].
Proof. repeat split; auto. discriminate. intros [|[|j]] Hj; simpl in *; try lia; unfold Rabs; destruct (Rcase_abs _); lra. Qed.

(** * C151 *)
(** number of polynomial features: multisets of columns, or subsets with [interaction_only] *)
Theorem C151_features : forall degree io t, (1 <= degree)%nat -> t <> [] -> exists l, poly_features degree io t = Ok l /\
  length l = sum_nat (map (fun k => if io then subsets (length t) k else multisets (length t) k) (seq 1 degree)).
Proof. exact features_length. Qed.
Print Assumptions C151_features.
(** the linear layer fits exactly for degree 2 *)
Theorem C151_forward_partial : forall n degree w b x, (1 <= n)%nat -> length x = n -> length w = hidden_dim n degree ->
  ((exists y, poly_forward n degree w b x = Ok y) <-> degree = 2%nat).
Proof. exact forward_iff. Qed.
Print Assumptions C151_forward_partial.
Theorem C151_degree_refuted : exists n degree w b x, (1 <= n)%nat /\ (1 <= degree)%nat /\ length x = n /\ length w = hidden_dim n degree /\ poly_forward n degree w b x = Exn RuntimeError.
Proof. exists 1%nat, 3%nat, [0; 0], 0, [1]. repeat (split; auto). Qed.
Print Assumptions C151_degree_refuted.
Example C151_meets : (1 <= 2)%nat /\ length [3; 5] = 2%nat /\ length [1; 1; 1; 1; 1] = hidden_dim 2 2 /\ poly_forward 2 2 [1; 1; 1; 1; 1] 0 [3; 5] = Ok 57 /\
  multisets 3 2 = 6%nat /\ subsets 3 2 = 3%nat.
Proof. repeat (split; auto). unfold poly_forward, poly_features. simpl. f_equal. ring. Qed.

(** * C152 *)
(** fronts as problems: every feasible point is optimal *)
Theorem C152_optimal : forall fuel P x y, P = front_convex fuel \/ P = front_concave fuel \/ P = front_linear fuel ->
  feasible P x -> feasible P y -> wdom y x -> y = x.
Proof. exact fronts_optimal. Qed.
Print Assumptions C152_optimal.
(** the inequality follows from the equality and the bounds *)
Theorem C152_redundant : forall fuel P x, P = front_convex fuel \/ P = front_concave fuel \/ P = front_linear fuel ->
  length x = 3%nat -> Forall (fun a => fp_lo P <= a <= fp_hi P) x -> fp_eq P x = 0 -> fp_ieq P x <= 0.
Proof. exact fronts_ieq. Qed.
Print Assumptions C152_redundant.
Lemma entry_le1 y : Forall (fun a => 0 <= a) y -> sumsq y = 1 -> Forall (fun a => 0 <= a <= 1) y.
Proof.
  intros N S. assert (B : forall l a, In a l -> a * a <= sumsq l).
  { induction l as [|b l IH]; intros a Ha; [destruct Ha|]. destruct Ha as [<-|Ha]; simpl. assert (P := sumsq_nonneg l). lra. specialize (IH a Ha). generalize (Rle_0_sqr b). unfold Rsqr. lra. }
  rewrite Forall_forall in *. intros a Ha. split; auto. specialize (B y a Ha). specialize (N a Ha). destruct (Rle_lt_dec a 1); auto. exfalso. assert (1 * 1 < a * a) by (apply Rmult_le_0_lt_compat; lra). lra.
Qed.
(** the rows reported as front are feasible for the concave and the linear one *)
Theorem C152_reported_partial : forall fuel F y, (496 < fuel)%nat ->
  (fp_front (front_concave fuel) = Ok F -> In y F -> feasible (front_concave fuel) y) /\
  (fp_front (front_linear fuel) = Ok F -> In y F -> feasible (front_linear fuel) y).
Proof.
  intros fuel F y Hf. split; intros EF Hy.
  - destruct (sphere_rows fuel F y Hf EF Hy) as (L & N & S). assert (B := entry_le1 y N S). assert (E : fp_eq (front_concave fuel) y = 0) by (simpl; lra).
    repeat split; auto. apply (fronts_ieq fuel); auto.
  - destruct (simplex_rows fuel F y Hf EF Hy) as (L & N & S). assert (E : fp_eq (front_linear fuel) y = 0) by (simpl; lra).
    assert (B : Forall (fun a => 0 <= a <= 1) y). { destruct y as [|a [|b [|c [|d y]]]]; simpl in L; try lia. apply Forall3 in N. unfold sumv in S. simpl in S. repeat (apply Forall_cons; [lra|]). apply Forall_nil. }
    repeat split; auto. apply (fronts_ieq fuel); auto.
Qed.
Print Assumptions C152_reported_partial.
(** for the convex one none of them is: the rows are in the positive orthant, the box is the negative one *)
Theorem C152_convex_refuted : forall fuel, (496 < fuel)%nat -> exists F, fp_front (front_convex fuel) = Ok F /\ F <> [] /\ forall y, In y F -> ~ feasible (front_convex fuel) y.
Proof.
  intros fuel Hf. destruct (ProbTop.ref_dirs_default fuel 3 None 496 ltac:(lia) Hf eq_refl) as (p & D & E & Hp & _ & H & _ & HL & _).
  assert (EF : fp_front (front_convex fuel) = Ok (generic_sphere D)) by (simpl; unfold sphere_front; rewrite E; auto).
  exists (generic_sphere D). split; auto. split. intros Z. apply (f_equal (@length _)) in Z. unfold generic_sphere in Z. rewrite map_length in Z. simpl in Z. lia.
  intros y Hy. destruct (sphere_rows fuel _ y Hf EF Hy) as (L & N & S). intros (_ & B & _ & _).
  destruct y as [|a [|b [|c [|d y]]]]; simpl in L; try lia. apply Forall3 in N, B. simpl in B. unfold sumsq in S. simpl in S. assert (a = 0) by lra. assert (b = 0) by lra. assert (c = 0) by lra. subst. lra.
Qed.
Print Assumptions C152_convex_refuted.
Example C152_meets : feasible (front_convex 0) [-1; 0; 0] /\ feasible (front_concave 0) [3 / 5; 0; 4 / 5] /\ feasible (front_linear 0) [/ 4; / 4; 0].
Proof. unfold feasible. simpl. repeat split; auto; try (repeat (apply Forall_cons; [lra|]); apply Forall_nil); unfold sumsq, sumv; simpl; lra. Qed.

(** * C153 *)
(** MOP1: the optimal points are the multiples p (1, ..., 1) with p between -1 and 1 *)
Theorem C153_pareto_set : forall n x, (1 <= n)%nat -> length x = n ->
  ((forall y, length y = n -> ~ dominates (mop1 y) (mop1 x)) <-> exists p, -1 <= p <= 1 /\ x = repeat p n).
Proof. exact mop1_optimal. Qed.
Print Assumptions C153_pareto_set.
(** Jacobian, and twice the identity as Hessian, give the exact expansion of the objectives and of the constraint *)
Theorem C153_derivatives : forall x d, length d = length x ->
  mop1 (vadd x d) = [nth 0 (mop1 x) 0 + sumv (map (fun p => fst p * snd p) (combine (nth 0 (mop1_jac x) []) d)) + sumsq d;
                     nth 1 (mop1 x) 0 + sumv (map (fun p => fst p * snd p) (combine (nth 1 (mop1_jac x) []) d)) + sumsq d] /\
  circle_h (vadd x d) = circle_h x + sumv (map (fun p => fst p * snd p) (combine (circle_jac x) d)) + sumsq d.
Proof. intros x d H. split. apply mop1_taylor; auto. apply circle_taylor; auto. Qed.
Print Assumptions C153_derivatives.
(** on the sphere the sum of the objectives is constant, so all points are optimal under the constraint *)
Theorem C153_constrained : forall x, circle_h x = 0 -> nth 0 (mop1 x) 0 + nth 1 (mop1 x) 0 = 2 + 2 * INR (length x) /\
  forall y, circle_h y = 0 -> length y = length x -> ~ dominates (mop1 y) (mop1 x).
Proof. intros x H. split. apply circle_sum; auto. intros y Hy L. apply circle_optimal; auto. Qed.
Print Assumptions C153_constrained.
Example C153_meets : length [/ 2; / 2] = 2%nat /\ mop1 [/ 2; / 2] = [/ 2; 9 / 2] /\ [/ 2; / 2] = repeat (/ 2) 2 /\ circle_h [3 / 5; 4 / 5] = 0 /\ length [1; 2] = length [/ 2; / 2].
Proof. repeat (split; auto). unfold mop1, sumsq. simpl. f_equal. field. f_equal. field. unfold circle_h, sumsq. simpl. field. Qed.

(** * C154 *)
(** initial points: N different ones, each nearest to the centre of its cluster among the points of the cluster *)
Theorem C154_points : forall labels centers pick X0 N l, picks pick -> select_points labels centers pick X0 N = Ok l ->
  length l = N /\ NoDup l /\ forall r, In r l -> (r < length X0)%nat /\ (nth r labels O < 2 * N)%nat /\
    forall j, (j < length X0)%nat -> nth j labels O = nth r labels O -> dist (nth r X0 []) (nth (nth r labels O) centers []) <= dist (nth j X0 []) (nth (nth r labels O) centers []).
Proof. exact select_spec. Qed.
Print Assumptions C154_points.
(** from different clusters *)
Theorem C154_clusters : forall labels centers pick X0 N l, picks pick -> select_points labels centers pick X0 N = Ok l ->
  forall a b, In a l -> In b l -> nth a labels O = nth b labels O -> a = b.
Proof. exact select_clusters. Qed.
Print Assumptions C154_clusters.
(** an exception exactly if fewer than N of the 2 N clusters are not empty *)
Theorem C154_error : forall labels centers pick X0 N, length labels = length X0 ->
  ((exists e, select_points labels centers pick X0 N = Exn e) <-> (count (fun i => existsb (Nat.eqb i) labels) (seq 0 (2 * N)) < N)%nat).
Proof. exact select_error. Qed.
Print Assumptions C154_error.
Example C154_meets : picks (fun l n => firstn n l) /\ select_points [0; 1; 1]%nat [[0]; [5]] (fun l n => firstn n l) [[0]; [3]; [6]] 1 = Ok [0]%nat /\ length [0; 1; 1]%nat = length [[0]; [3]; [6]].
Proof.
  split.
  - intros l n H. exists (seq 0 n). split. apply seq_NoDup. split. apply seq_length. split. intros j Hj. apply in_seq in Hj. lia.
    revert l H. induction n as [|n IH]; intros l H; simpl; auto. destruct l as [|a l]; simpl in *. lia. f_equal. rewrite (IH l) by lia. rewrite <- seq_shift, map_map. auto.
  - split; auto.
Qed.

(** * C155 *)
(** comparison tables: rows where the test does not reject are ties; the others are wins if the
    first median is smaller and losses otherwise *)
Theorem C155_counts : forall rows, exists w t l, tally rows = (w, t, l) /\ (w + t + l = length rows)%nat /\
  t = count (fun r => negb (fst (fst r))) rows /\
  w = count (fun r => fst (fst r) && if Rlt_dec (snd (fst r)) (snd r) then true else false) rows.
Proof.
  intros rows. rewrite tally_spec. do 3 eexists. split. reflexivity. split.
  - unfold count. induction rows as [|[[rej x] y] rows IH]; auto. destruct rej; simpl; [destruct (rleb y x); simpl|]; lia.
  - split; auto.
    unfold count. f_equal. apply filter_ext. intros [[rej x] y]. simpl. destruct (Rlt_dec x y), (rleb y x) eqn:E; auto. apply rleb_true in E. lra. apply rleb_false in E. lra.
Qed.
Print Assumptions C155_counts.
(** a row with equal medians where the test rejects is counted as a loss of both sides *)
Theorem C155_equal_refuted : exists x y, x = y /\ tally [(true, x, y)] = (0, 0, 1)%nat /\ tally [(true, y, x)] = (0, 0, 1)%nat.
Proof.
  exists 1, 1. split; auto. unfold tally. simpl. assert (E : rleb 1 1 = true) by (apply rleb_true; lra). rewrite E. auto.
Qed.
Print Assumptions C155_equal_refuted.
(** examples/HVSS/compute_stats.py: given the decisions of the test the table does not depend on the data of HVN *)
Theorem C155_hvss_independent : forall reject d d', reject d = reject d' -> map snd d = map snd d' -> tally_hvss (rows_hvss reject d) = tally_hvss (rows_hvss reject d').
Proof.
  intros reject d d' E H. assert (G : forall dec (d d' : list (list R * list R)), map snd d = map snd d' ->
    map (fun p : bool * (list R * list R) => let '(r, (_, other)) := p in (r, fst (stats_func other), snd (stats_func other))) (combine dec d) =
    map (fun p : bool * (list R * list R) => let '(r, (_, other)) := p in (r, fst (stats_func other), snd (stats_func other))) (combine dec d')).
  { clear. intros dec. induction dec as [|r dec IH]; intros [|[a o] d] [|[a' o'] d'] H; simpl in *; try discriminate; auto. injection H as -> H. f_equal. auto. }
  unfold rows_hvss. rewrite <- E, (G _ d d'); auto.
Qed.
Print Assumptions C155_hvss_independent.
(** the wins are the rejections if the values of the other algorithm spread less than their size *)
Theorem C155_hvss_wins_partial : forall reject data a b, length (reject data) = length data -> b - a < a ->
  (forall p, In p data -> snd p <> [] /\ forall v, In v (snd p) -> a <= v <= b) ->
  tally_hvss (rows_hvss reject data) = (count (fun r : bool => r) (reject data), count negb (reject data), 0%nat).
Proof.
  intros reject data a b HL Hab HD. rewrite tally_hvss_spec. unfold rows_hvss. revert HL. generalize (reject data). intros dec HL.
  assert (G : forall dec data, length dec = length data -> (forall p : list R * list R, In p data -> snd p <> [] /\ forall v, In v (snd p) -> a <= v <= b) ->
    let rows := map (fun p : bool * (list R * list R) => let '(r, (_, other)) := p in (r, fst (stats_func other), snd (stats_func other))) (combine dec data) in
    count (fun r : bool * R * R => fst (fst r) && negb (rleb (snd (fst r)) (snd r))) rows = count (fun r : bool => r) dec /\
    count (fun r : bool * R * R => negb (fst (fst r))) rows = count negb dec /\ count (fun r : bool * R * R => fst (fst r) && rleb (snd (fst r)) (snd r)) rows = 0%nat).
  { clear - Hab. unfold count. intros dec. induction dec as [|r dec IH]; intros [|[hv o] data] L H; simpl in L; try discriminate; simpl; auto.
    destruct (IH data ltac:(lia) ltac:(intros; apply H; right; auto)) as (I1 & I2 & I3). destruct (H (hv, o) (or_introl eq_refl)) as [Ho Hv]. simpl in Ho, Hv.
    assert (E : rleb (median o) (quantile 0.9 o - quantile 0.1 o) = false).
    { apply rleb_false. assert (M := median_range o a b Ho Hv). assert (Q1 := quantile_range 0.9 o a b ltac:(lra) Ho Hv). assert (Q2 := quantile_range 0.1 o a b ltac:(lra) Ho Hv). lra. }
    rewrite E. destruct r; simpl; rewrite ?I1, ?I2, ?I3; auto. }
  destruct (G dec data HL HD) as (-> & -> & ->). auto.
Qed.
Print Assumptions C155_hvss_wins_partial.
(** otherwise a rejection may be counted as a loss although all values of HVN are the larger ones *)
Theorem C155_hvss_wins_refuted : exists (data : list (list R * list R)), (forall p, In p data -> forall u v, In u (fst p) -> In v (snd p) -> v < u) /\
  tally_hvss (rows_hvss (fun _ => [true]) data) = (0, 0, 1)%nat.
Proof.
  exists [([10; 10], [0; 5])]. split.
  - intros p [<-|[]] u v Hu Hv. simpl in *. destruct Hu as [<-|[<-|[]]], Hv as [<-|[<-|[]]]; lra.
  - rewrite tally_hvss_spec. unfold rows_hvss, count. simpl.
    assert (S : sort [0; 5] = [0; 5]). { unfold sort. simpl. replace (rleb 0 5) with true by (symmetry; apply rleb_true; lra). auto. }
    assert (E : rleb (median [0; 5]) (quantile 0.9 [0; 5] - quantile 0.1 [0; 5]) = true).
    { apply rleb_true. unfold median, quantile. rewrite S. simpl length. simpl Nat.sub. simpl INR. rewrite !Rmult_1_r.
      assert (I1 : Int_part 0.9 = 0%Z). { symmetry. unfold Int_part. cut (up 0.9 = 1%Z). intros ->. auto. symmetry. apply tech_up; lra. }
      assert (I2 : Int_part 0.1 = 0%Z). { symmetry. unfold Int_part. cut (up 0.1 = 1%Z). intros ->. auto. symmetry. apply tech_up; lra. }
      rewrite I1, I2. simpl. lra. }
    rewrite E. auto.
Qed.
Print Assumptions C155_hvss_wins_refuted.
Example C155_meets : length ((fun _ : list (list R * list R) => [true]) [([3], [2; 2])]) = length [([3], [2; 2])] /\ 5 / 2 - 2 < 2 /\
  (forall p, In p [([3], [2; 2])] -> snd p <> [] /\ forall v, In v (snd p) -> 2 <= v <= 5 / 2) /\ tally [(true, 1, 2); (false, 1, 2)] = (1, 1, 0)%nat.
Proof.
  split; auto. split. lra. split. intros p [<-|[]]. simpl. split. discriminate. intros v [<-|[<-|[]]]; lra.
  unfold tally. simpl. assert (E : rleb 2 1 = false) by (apply rleb_false; lra). rewrite E. auto.
Qed.

(** * C156 *)
(** a well-formed file (rows of three numbers, knots, degree, with or without header) is read back *)
Theorem C156_round_trip : forall float_of int_of header rows vals knots kvals degree d,
  Forall2 (fun r v => length r = 3%nat /\ Forall number_text r /\ Forall2 (fun s x => float_of s = Some x) r v) rows vals ->
  Forall number_text knots -> Forall2 (fun s x => float_of s = Some x) knots kvals -> number_text degree -> int_of degree = Some d ->
  read_bspline float_of int_of (spline_lines header rows knots degree) = Ok (mkSpline vals kvals (Some d)).
Proof. exact read_written. Qed.
Print Assumptions C156_round_trip.
(** without a degree section the degree is None, not an error *)
Theorem C156_no_degree : forall float_of int_of ls sp, (forall l, In l ls -> startswith (lower (strip l)) (tx "degree") = false) ->
  read_bspline float_of int_of ls = Ok sp -> sp_degree sp = None.
Proof. intros float_of int_of ls sp H E. apply (parse_degree_none float_of int_of ls 0 Points (mkSpline [] [] None) sp H); auto. discriminate. Qed.
Print Assumptions C156_no_degree.
(** rows with another number of fields are dropped silently, whatever they contain *)
Theorem C156_dropped : forall float_of int_of row rest, Forall number_text row -> row <> [] -> length row <> 3%nat ->
  forall k sp, parse_lines float_of int_of k Points sp (join row :: rest) = parse_lines float_of int_of (S k) Points sp rest.
Proof.
  intros float_of int_of row rest HN Hne HL k sp. destruct (join_first row Hne HN) as (c & t & E & Hc). cbn [parse_lines].
  rewrite (parse_plain float_of int_of k Points sp (join row) c t (join_solid row HN) E Hc), split_join by auto. destruct (Nat.eqb_spec (length row) 3); [contradiction|]. auto.
Qed.
Print Assumptions C156_dropped.
(** the header is recognised in the very first line only: after an empty line it is taken for a point *)
Theorem C156_header_refuted : exists float_of int_of rest, float_of (tx "x") = None /\ read_bspline float_of int_of (tx "x,y,z" :: rest) = Ok (mkSpline [] [] None) /\
  read_bspline float_of int_of (tx "" :: tx "x,y,z" :: rest) = Exn ValueError.
Proof. exists (fun _ => None), (fun _ => None), []. split; auto. Qed.
Print Assumptions C156_header_refuted.
Example C156_meets : number_text (tx "0.5") /\ number_text (tx "-1e-3") /\ ~ number_text (tx "knots") /\
  spline_lines true [[tx "1"; tx "2"; tx "3"]] [tx "0"; tx "1"] (tx "3") = [tx "x,y,z"; tx "1,2,3"; tx "knots"; tx "0,1"; tx "degree"; tx "3"].
Proof.
  assert (N : forall s, s <> [] -> forallb (fun c => negb (if ascii_dec c "," then true else false) && negb (is_space c)) s = true ->
    match s with c :: _ => forallb (fun d => negb (if ascii_dec (lower_char c) d then true else false)) (tx "kdx") = true | [] => True end -> number_text s).
  { intros s H1 H2 H3. split; auto. rewrite forallb_forall in H2. split.
    - intros c Hc. specialize (H2 c Hc). apply andb_true_iff in H2. destruct H2 as [A B]. destruct (ascii_dec c ",") as [e|n]; [discriminate A|]. split; auto. destruct (is_space c); auto; discriminate B.
    - intros c t -> Hc. rewrite forallb_forall in H3. specialize (H3 _ Hc). destruct (ascii_dec (lower_char c) (lower_char c)); [discriminate|congruence]. }
  split. apply N; [discriminate| |]; reflexivity. split. apply N; [discriminate| |]; reflexivity. split; auto.
  intros (_ & _ & H). apply (H "k"%char (tx "nots") eq_refl). left. reflexivity.
Qed.

(** * C157 *)
(** NSGA-III: never more directions than individuals, of the dimension of the objective space; MOEA/D likewise for 2 and 3 objectives *)
Theorem C157_directions_partial : forall n a c s k d, (get_algorithm n a c = Ok s \/ get_algorithm_bench n a c = Ok s) -> s_dirs s = Some (k, d) -> (1 <= k <= s_pop s)%nat /\ d = n.
Proof.
  assert (Z1 : n_dirs 2 99 = 100%nat) by reflexivity. assert (Z2 : n_dirs 3 23 = 300%nat) by (vm_compute; auto). assert (Z3 : n_dirs 4 13 = 560%nat) by (vm_compute; auto).
  assert (Z4 : n_dirs 2 80 = 81%nat) by reflexivity. assert (Z5 : n_dirs 3 20 = 231%nat) by (vm_compute; auto). assert (Z6 : n_dirs 4 14 = 680%nat) by (vm_compute; auto). assert (Z7 : n_dirs 3 14 = 120%nat) by (vm_compute; auto).
  intros n a c s k d [H|H] Hs.
  - destruct n as [|[|[|[|[|n]]]]]; destruct a; unfold get_algorithm, pop_size in H; rewrite ?Z1, ?Z2, ?Z3, ?Z7 in H; cbn [bind] in H; try discriminate H; try (injection H as <-; simpl in Hs; try discriminate; injection Hs as <- <-; simpl; lia).
  - destruct n as [|[|[|[|[|n]]]]]; destruct a; unfold get_algorithm_bench, pop_size in H; cbn [bind] in H; try discriminate H; change (100 - 20)%nat with 80%nat in H; rewrite ?Z1, ?Z2, ?Z3, ?Z4, ?Z5, ?Z6 in H;
      try (injection H as <-; simpl in Hs; try discriminate; injection Hs as <- <-; simpl; lia).
Qed.
Print Assumptions C157_directions_partial.
(** when a set-up exists: for 2, 3 and 4 objectives and the four algorithms, except MOEA/D with 4
    objectives in run_EA_save_population.py, where 600 of 120 directions in dimension 3 are asked for *)
Theorem C157_defined : forall n a c, ((exists s, get_algorithm n a c = Ok s) <-> (2 <= n <= 4)%nat /\ a <> Unknown /\ (a = MOEAD -> n <> 4%nat)) /\
  ((exists s, get_algorithm_bench n a c = Ok s) <-> (2 <= n <= 4)%nat /\ a <> Unknown).
Proof.
  assert (Z7 : n_dirs 3 14 = 120%nat) by (vm_compute; auto). assert (Z6 : n_dirs 4 14 = 680%nat) by (vm_compute; auto).
  assert (L1 : (600 <=? 120)%nat = false) by (apply Nat.leb_gt; lia). assert (L2 : (600 <=? 680)%nat = true) by (apply Nat.leb_le; lia).
  intros n a c. split.
  - destruct n as [|[|[|[|[|n]]]]]; destruct a; unfold get_algorithm, pop_size; cbn [bind]; rewrite ?Z7, ?L1; split; try (intros (s & H); discriminate); try (intros (A & B & C); exfalso; first [lia|congruence|exact (C eq_refl eq_refl)]);
      try (intros _; repeat split; try lia; try discriminate; congruence); try (intros _; solve [eauto]); try (intros _; repeat split; first [lia|discriminate]).
  - destruct n as [|[|[|[|[|n]]]]]; destruct a; unfold get_algorithm_bench, pop_size; cbn [bind]; rewrite ?Z6, ?L2; split; try (intros (s & H); discriminate); try (intros (A & B); exfalso; first [lia|congruence]);
      try (intros _; solve [eauto]); try (intros _; repeat split; first [lia|discriminate]).
Qed.
Print Assumptions C157_defined.
Theorem C157_moead_refuted : forall c, get_algorithm 4 MOEAD c = Exn ValueError.
Proof. intros c. unfold get_algorithm. replace (n_dirs 3 14) with 120%nat by (vm_compute; auto). replace (600 <=? 120)%nat with false by (symmetry; apply Nat.leb_gt; lia). auto. Qed.
Print Assumptions C157_moead_refuted.
(** populations saved: the last six iterations if all are performed; an exception exactly if fewer than n_gen - 5 are *)
Theorem C157_saved : forall n performed, ((6 <= n)%nat -> performed = n -> saved n performed = Ok (seq (n - 5) 6)) /\
  (forall l, saved n performed = Ok l -> forall k, In k l <-> (1 <= k <= performed /\ n <= k + 5)%nat) /\
  ((exists e, saved n performed = Exn e) <-> (performed = 0 \/ performed + 5 < n)%nat).
Proof. intros n performed. split. apply saved_spec. split. intros l H. apply saved_in; auto. apply saved_error. Qed.
Print Assumptions C157_saved.
(** benchmark_EA.py: without a feasible point the values are meant to be NaN, but the hypervolume is never set *)
Theorem C157_infeasible_refuted : forall igd gd hv, bench_values igd gd hv None = Exn UnboundLocalError.
Proof. auto. Qed.
Print Assumptions C157_infeasible_refuted.
Example C157_meets : (6 <= 300)%nat /\ saved 7 7 = Ok [2; 3; 4; 5; 6; 7]%nat /\ exists s, get_algorithm 2 NSGA3 true = Ok s /\ s_dirs s = Some (100%nat, 2%nat).
Proof. split. lia. split. reflexivity. eexists. split. reflexivity. reflexivity. Qed.

(** * C158 *)
(** the curve fitted to ZDT1: first objective strictly increasing, second strictly decreasing, so no two points dominate each other *)
Theorem C158_monotone : forall s t p q, s < t -> zdt1_curve s = Some p -> zdt1_curve t = Some q -> nth 0 p 0 < nth 0 q 0 /\ nth 1 q 0 < nth 1 p 0.
Proof.
  unfold zdt1_curve. intros s t p q Hst. destruct (rleb 0 s && rleb s 1) eqn:E1; [|discriminate]. destruct (rleb 0 t && rleb t 1) eqn:E2; [|discriminate]. intros [= <-] [= <-].
  apply andb_true_iff in E1, E2. destruct E1 as [A1 A2], E2 as [B1 B2]. apply rleb_true in A1, A2, B1, B2. cbn [nth]. unfold zdt1_coeff1, zdt1_coeff2.
  split. apply bernstein_increasing; lra. apply bernstein_decreasing; lra.
Qed.
Print Assumptions C158_monotone.
Theorem C158_nondominated : forall s t p q, zdt1_curve s = Some p -> zdt1_curve t = Some q -> ~ dominates p q.
Proof.
  intros s t p q Hp Hq [W N]. destruct (Rtotal_order s t) as [H|[H|H]].
  - destruct (C158_monotone s t p q H Hp Hq) as [A B]. unfold zdt1_curve in *. destruct (rleb 0 s && rleb s 1), (rleb 0 t && rleb t 1); try discriminate. injection Hp as <-. injection Hq as <-. apply wdom2 in W. simpl in *. lra.
  - subst t. congruence.
  - destruct (C158_monotone t s q p H Hq Hp) as [A B]. unfold zdt1_curve in *. destruct (rleb 0 s && rleb s 1), (rleb 0 t && rleb t 1); try discriminate. injection Hp as <-. injection Hq as <-. apply wdom2 in W. simpl in *. lra.
Qed.
Print Assumptions C158_nondominated.
(** no values outside of the parameters *)
Theorem C158_outside : forall t, zdt1_curve t = None <-> t < 0 \/ 1 < t.
Proof.
  intros t. unfold zdt1_curve. destruct (rleb 0 t) eqn:A, (rleb t 1) eqn:B; simpl; try apply rleb_true in A; try apply rleb_true in B; try apply rleb_false in A; try apply rleb_false in B; split; intros H; auto; try discriminate; try lra.
Qed.
Print Assumptions C158_outside.
Theorem C158_ends : zdt1_curve 0 = Some [0.001252528; 0.964662523] /\ zdt1_curve 1 = Some [1; 0.000000000015].
Proof.
  unfold zdt1_curve. replace (rleb 0 0) with true by (symmetry; apply rleb_true; lra). replace (rleb 0 1) with true by (symmetry; apply rleb_true; lra). replace (rleb 1 1) with true by (symmetry; apply rleb_true; lra). cbn [andb].
  unfold zdt1_coeff1, zdt1_coeff2. rewrite !bernstein5. split; f_equal; f_equal; try f_equal; lra.
Qed.
Print Assumptions C158_ends.
Example C158_meets : 0 < / 2 /\ exists p q, zdt1_curve 0 = Some p /\ zdt1_curve (/ 2) = Some q.
Proof.
  split. lra. unfold zdt1_curve. replace (rleb 0 0) with true by (symmetry; apply rleb_true; lra). replace (rleb 0 1) with true by (symmetry; apply rleb_true; lra).
  replace (rleb 0 (/ 2)) with true by (symmetry; apply rleb_true; lra). replace (rleb (/ 2) 1) with true by (symmetry; apply rleb_true; lra). simpl. eauto.
Qed.

(** * C159 *)
(** best values so far: the i-th is the largest of the first i + 1, they never decrease and the last is the best of the run *)
Theorem C159_best : forall l, length (best_so_far l) = length l /\ (forall i, (i < length l)%nat -> is_max (firstn (S i) l) (nth i (best_so_far l) 0)) /\
  (forall i j, (i <= j)%nat -> (j < length l)%nat -> nth i (best_so_far l) 0 <= nth j (best_so_far l) 0) /\
  (l <> [] -> is_max l (nth (length l - 1) (best_so_far l) 0)).
Proof.
  intros l. split. apply best_length. split. apply best_spec. split. apply best_monotone. intros H.
  assert (L : (length l - 1 < length l)%nat) by (destruct l; simpl; [congruence|lia]). assert (B := best_spec l _ L). rewrite firstn_all2 in B by lia. auto.
Qed.
Print Assumptions C159_best.
(** points of the archive: for each point a nearest one *)
Theorem C159_archive : forall archive Y, archive <> [] -> exists ix, select_archive archive Y = Ok ix /\ length ix = length Y /\
  Forall2 (fun i y => exists a, nth_error archive i = Some a /\ forall b, In b archive -> dist y a <= dist y b) ix Y.
Proof. exact select_archive_spec. Qed.
Print Assumptions C159_archive.
(** the same one may be chosen several times, so fewer points than asked for may result *)
Theorem C159_distinct_refuted : exists archive Y ix, NoDup archive /\ NoDup Y /\ (length Y <= length archive)%nat /\ select_archive archive Y = Ok ix /\ ~ NoDup ix.
Proof.
  exists [[0]; [10]], [[1]; [2]], [0; 0]%nat.
  assert (D : forall a b : R, a <> b -> NoDup [[a]; [b]]). { intros a b H. constructor. intros [E|[]]. congruence. constructor; auto. constructor. }
  split. apply D. lra. split. apply D. lra. split; auto. split.
  - assert (E : forall y, 0 <= y -> y <= 2 -> nearest [[0]; [10]] [y] = Ok O).
    { intros y H0 H2. unfold nearest. cbn [map argmin nth]. replace (rleb (norm2 (vdiff [y] [0])) (norm2 (vdiff [y] [10]))) with true; auto. symmetry. apply rleb_true. rewrite !norm2_vdiff. unfold dist. simpl.
      apply sqrt_le_1_alt. assert (0 <= 10 * (10 - 2 * y)) by (apply Rmult_le_pos; lra). lra. }
    simpl. rewrite !E by lra. auto.
  - intros H. inversion H; subst. apply H2. left; auto.
Qed.
Print Assumptions C159_distinct_refuted.
Example C159_meets : [[0]; [10]] <> [] /\ best_so_far [1; 3; 2] = [1; 3; 3] /\ [1; 3; 2] <> [].
Proof. split. discriminate. split; [|discriminate]. simpl. unfold Rmax. destruct (Rle_dec 1 3); [|lra]. destruct (Rle_dec 3 2); [lra|]. auto. Qed.

(** * C160 *)
(** cluster of a point in benchmark_CONV4.py: one whose farthest point is nearest *)
Theorem C160_minimax : forall refs Y, (forall r, In r refs -> r <> []) -> refs <> [] -> exists ix, match_cluster refs Y = Ok ix /\
  Forall2 (fun i y => exists r m, nth_error refs i = Some r /\ (forall a, In a r -> dist a y <= m) /\
    forall r', In r' refs -> exists a, In a r' /\ m <= dist a y) ix Y.
Proof.
  intros refs Y Hr Hn. destruct (match_cluster_spec refs Y Hn) as (ix & E & F). exists ix. split; auto. clear E. induction F as [|i y ix Y [Hi H] F IH]; constructor; auto.
  exists (nth i refs []), (far (nth i refs []) y). split. apply List.nth_error_nth'; auto. split.
  - apply far_spec. apply Hr. apply nth_In; auto.
  - intros r' Hr'. destruct (far_spec r' y (Hr r' Hr')) as [_ (a & Ha & Ea)]. exists a. split; auto. rewrite <- Ea.
    apply (In_nth _ _ []) in Hr'. destruct Hr' as (j & Hj & <-). auto.
Qed.
Print Assumptions C160_minimax.
(** so a point that is itself in one cluster may be put into another *)
Theorem C160_nearest_refuted : exists refs y, In y (nth 0 refs []) /\ (forall a, In a (nth 1 refs []) -> 3 < dist a y) /\ length refs = 2%nat /\ match_cluster refs [y] = Ok [1]%nat.
Proof.
  exists [[[0]; [10]]; [[4]]], [0]. split. left; auto. assert (S : forall a, 0 <= a -> norm2 (vdiff [a] [0]) = a).
  { intros a Ha. rewrite norm2_vdiff. unfold dist. simpl. rewrite Rplus_0_r, Rminus_0_r. apply sqrt_square. auto. }
  split. intros a [<-|[]]. rewrite <- norm2_vdiff, S; lra. split; auto.
  unfold match_cluster. cbn [fold_right bind map argmin nth]. unfold far. cbn [map fold_right]. rewrite !S by lra.
  replace (rleb (Rmax 0 (Rmax 10 0)) (Rmax 4 0)) with false; auto. symmetry. apply rleb_false. unfold Rmax. destruct (Rle_dec 10 0); [lra|]. destruct (Rle_dec 0 10); [|lra]. destruct (Rle_dec 4 0); lra.
Qed.
Print Assumptions C160_nearest_refuted.
Example C160_meets : (forall r, In r [[[0]; [10]]; [[4]]] -> r <> []) /\ [[[0]; [10]]; [[4]]] <> [].
Proof. split. intros r [<-|[<-|[]]]; discriminate. discriminate. Qed.
