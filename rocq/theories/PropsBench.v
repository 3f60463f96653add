(** Property theorems: the fronts of the ZDT, UF and CF benchmark problems. *)
From Coq Require Import List Arith Bool Reals Lia Lra Psatz.
From Verif Require Import Exn ListAux NewtonModel ProbModel ProbSpec ProbTop PropsProb BenchModel BenchSpec BenchBase BenchTrig BenchUF BenchUF3 BenchZDT BenchMin BenchCF BenchCF4 BenchCF8.
Import ListNotations.
Open Scope R_scope.

(** the vectors reported for a curve *)
Lemma curve_reported phi N u : In u (curve_front phi N) -> graph unit_interval phi u.
Proof. unfold curve_front. rewrite in_map_iff. intros (t & <- & H). exists t. split; auto. apply (linspace_unit N); auto. Qed.
Lemma curve_has phi N t : In t (linspace01 N) -> In [t; phi t] (curve_front phi N).
Proof. intros H. unfold curve_front. apply in_map_iff. exists t; auto. Qed.
Lemma front_optimal F f (C : list R -> Prop) u : front F f C -> C u -> optimal F f u.
Proof. intros (H & _) Hu. apply H; auto. Qed.
Lemma half_in : In (1/2) (linspace01 3).
Proof. right. left. cbn. field. Qed.

(** * C78 *)
Theorem C78_zdt2 : forall n, (2 <= n)%nat ->
  front (zdt_box n) zdt2 (graph unit_interval (fun t => 1 - t * t)) /\
  (forall N u, In u (zdt2_front N) -> optimal (zdt_box n) zdt2 u) /\
  (forall N x, In x (zdt_set n N) -> zdt_box n x /\ exists u, zdt2 x = Some u /\ optimal (zdt_box n) zdt2 u).
Proof.
  intros n Hn. pose proof (zdt2_front_spec n Hn) as H. split; [exact H|]. split.
  - intros N u Hu. eapply front_optimal; [exact H|]. exact (curve_reported _ N u Hu).
  - intros N x Hx. unfold zdt_set in Hx. apply in_map_iff in Hx. destruct Hx as (t & <- & Ht). apply linspace_unit in Ht. fold (zrow n t).
    split; [apply zrow_box; cbn; try lia; lra|]. exists [t; 1 - t * t]. split; [|eapply front_optimal; [exact H|]; exists t; auto].
    unfold zdt2. rewrite zdt_g_row by auto. cbn [zrow nth_error]. rewrite div1, Rmult_1_l. reflexivity.
Qed.
Print Assumptions C78_zdt2.
(** the smallest ratio in the code is [eps]: the front is the reported one for a first objective above it *)
Theorem C78_zdt1_zdt4 : forall n, (2 <= n)%nat ->
  let C := graph (fun t => t = 0 \/ / 10 ^ 12 < t <= 1) (fun t => 1 - sqrt (Rmax t (/ 10 ^ 12))) in
  front (zdt_box n) zdt1 C /\ front (in_box n 1 0 1 (-5) 5) zdt4 C /\
  (forall N u, In u (zdt1_front N) -> / 10 ^ 12 < nth 0 u 0 -> optimal (zdt_box n) zdt1 u /\ optimal (in_box n 1 0 1 (-5) 5) zdt4 u).
Proof.
  intros n Hn C. pose proof (zdt1_front_spec n Hn) as H1. pose proof (zdt4_front_spec n Hn) as H4. split; [exact H1|]. split; [exact H4|].
  intros N u Hu Hp. destruct (curve_reported (fun f => 1 - sqrt f) N u Hu) as (t & Ht & ->). cbn [nth] in Hp.
  assert (Cu : C [t; 1 - sqrt t]). { exists t. split; [right; split; auto; apply Ht|]. rewrite Rmax_left by lra. reflexivity. }
  split; (eapply front_optimal; [eassumption|exact Cu]).
Qed.
Print Assumptions C78_zdt1_zdt4.
(** the first reported vector is dominated: the code's floor lowers the second objective there *)
Theorem C78_zdt1_zdt4_refuted : forall n N, (2 <= n)%nat -> (1 <= N)%nat ->
  exists u, In u (zdt1_front N) /\ ~ optimal (zdt_box n) zdt1 u /\ ~ optimal (in_box n 1 0 1 (-5) 5) zdt4 u.
Proof.
  intros n N Hn HN. exists [0; 1 - sqrt 0]. split; [exact (curve_has (fun f => 1 - sqrt f) N 0 (linspace_zero N HN))|].
  assert (Hne : ~ graph zdt1_dom zdt1_phi [0; 1 - sqrt 0]).
  { intros (t & Ht & E). injection E as <- E. unfold zdt1_phi in E. pose proof eps_pos. rewrite Rmax_right in E by lra. rewrite sqrt_0 in E. pose proof (sqrt_lt_R0 eps eps_pos). lra. }
  split; intros Ho; apply Hne; [apply (proj1 (zdt1_front_spec n Hn))|apply (proj1 (zdt4_front_spec n Hn))]; auto.
Qed.
Print Assumptions C78_zdt1_zdt4_refuted.
(** every row of the reported Pareto set with a first entry 0 or above [eps] is optimal for ZDT1 *)
Theorem C78_zdt1_set : forall n N x, (2 <= n)%nat -> In x (zdt_set n N) -> (nth 0 x 0 = 0 \/ / 10 ^ 12 < nth 0 x 0) ->
  zdt_box n x /\ exists u, zdt1 x = Some u /\ optimal (zdt_box n) zdt1 u.
Proof.
  intros n N x Hn Hx H0. unfold zdt_set in Hx. apply in_map_iff in Hx. destruct Hx as (t & <- & Ht). apply linspace_unit in Ht. fold (zrow n t) in *. cbn [zrow nth] in H0.
  split; [apply zrow_box; cbn; try lia; lra|]. exists [t; zdt1_phi t]. split; [apply zdt1_row; auto|]. eapply front_optimal; [apply zdt1_front_spec; auto|]. exists t. split; auto.
  destruct H0; [left|right]; auto. unfold eps. lra.
Qed.
Print Assumptions C78_zdt1_set.
(** ZDT3: the front consists of the successive minima of one function; reported vectors above [eps]
    belong to points.  That the reported intervals are those of the minima is not proved. *)
Theorem C78_zdt3_partial : forall n, (2 <= n)%nat ->
  let phi := fun t => 1 - sqrt (Rmax t (/ 10 ^ 12)) - t * sin (10 * PI * t) in
  (forall u, optimal (zdt_box n) zdt3 u <-> graph (fun t => 0 <= t <= 1 /\ forall s, 0 <= s < t -> phi t < phi s) phi u) /\
  (forall N u, In u (zdt3_front N) -> / 10 ^ 12 < nth 0 u 0 -> attained (zdt_box n) zdt3 u).
Proof.
  intros n Hn phi. split; [intros u; exact (zdt3_optimal n u Hn)|]. intros N u Hu Hp. unfold zdt3_front in Hu. apply in_concat in Hu. destruct Hu as (b & Hb & Hu).
  apply in_map_iff in Hb. destruct Hb as ((lo, hi) & <- & Hr). apply in_map_iff in Hu. destruct Hu as (t & <- & Ht). apply linspace_unit in Ht. cbn [fst snd nth] in *.
  set (f := lo + t * (hi - lo)) in *. assert (Hf : 0 <= f <= 1).
  { unfold f. assert (0 <= lo <= hi /\ hi <= 1) by (repeat (destruct Hr as [Hr|Hr]; [injection Hr as <- <-; lra|]); destruct Hr). nra. }
  exists (zrow n f). split; [apply zrow_box; cbn; try lia; lra|]. rewrite zdt3_row by auto. unfold zdt3_phi, eps. rewrite Rmax_left by lra. reflexivity.
Qed.
Print Assumptions C78_zdt3_partial.
Theorem C78_zdt3_front : forall n, (2 <= n)%nat ->
  let phi := fun t => 1 - sqrt (Rmax t (/ 10 ^ 12)) - t * sin (10 * PI * t) in
  front (zdt_box n) zdt3 (graph (fun t => 0 <= t <= 1 /\ forall s, 0 <= s < t -> phi t < phi s) phi).
Proof. intros n Hn phi. exact (zdt3_front_all n Hn). Qed.
Print Assumptions C78_zdt3_front.
(** the first reported vector is dominated, as for ZDT1 *)
Theorem C78_zdt3_refuted : forall n N, (2 <= n)%nat -> exists u, In u (zdt3_front N) /\ ~ optimal (zdt_box n) zdt3 u.
Proof.
  intros n N Hn. exists [0 + 0 * (0.0830015349 - 0); 1 - sqrt (0 + 0 * (0.0830015349 - 0)) - (0 + 0 * (0.0830015349 - 0)) * sin (10 * PI * (0 + 0 * (0.0830015349 - 0)))]. split.
  - unfold zdt3_front, zdt3_regions. cbn [map concat]. apply in_app_iff. left. cbn [fst snd].
    apply (in_map (fun t => [0 + t * (0.0830015349 - 0); 1 - sqrt (0 + t * (0.0830015349 - 0)) - (0 + t * (0.0830015349 - 0)) * sin (10 * PI * (0 + t * (0.0830015349 - 0)))])). apply linspace_zero. lia.
  - replace (0 + 0 * (0.0830015349 - 0)) with 0 by ring. intros Ho. apply zdt3_optimal in Ho; auto. destruct Ho as (t & _ & E). injection E as <- E. unfold zdt3_phi in E. pose proof eps_pos. rewrite Rmax_right in E by lra. rewrite sqrt_0 in E. pose proof (sqrt_lt_R0 eps eps_pos). lra.
Qed.
Print Assumptions C78_zdt3_refuted.
(** ZDT6: the front lies above the reported one, which no point attains *)
Theorem C78_zdt6 : forall n, (2 <= n)%nat ->
  front (zdt_box n) zdt6 (graph (fun t => exists x, 0 <= x <= 1 /\ t = 1 - exp (-4 * x) * sin (6 * PI * x) ^ 6) (fun t => 1.009 - t * t / 1.009)).
Proof. exact zdt6_front_spec. Qed.
Print Assumptions C78_zdt6.
Theorem C78_zdt6_refuted : forall n N, (2 <= n)%nat -> (1 <= N)%nat -> zdt6_front N <> [] /\ forall u, In u (zdt6_front N) -> ~ attained (zdt_box n) zdt6 u.
Proof.
  intros n N Hn HN. split.
  - intros E. assert (H : In 0 (linspace01 N)) by (apply linspace_zero; auto). apply (in_map (fun t => let f := 0.2807753191 + t * (1 - 0.2807753191) in [f; 1 - sq f])) in H.
    change (map (fun t => let f := 0.2807753191 + t * (1 - 0.2807753191) in [f; 1 - sq f]) (linspace01 N)) with (zdt6_front N) in H. rewrite E in H. destruct H.
  - intros u Hu (x & Hx & E). unfold zdt6_front in Hu. apply in_map_iff in Hu. destruct Hu as (t & <- & _). cbv zeta in E. apply zdt6_above with (n := n) in E; auto. lra.
Qed.
Print Assumptions C78_zdt6_refuted.
Example C78_meets : zdt_box 3 [1/2; 1/4; 3/4] /\ zdt2 [1/2; 1/4; 3/4] = Some [1/2; 11/2 * (1 - (1/11) * (1/11))] /\
  In [1/2; 3/4] (zdt2_front 3) /\ In [1/2; 1 - sqrt (1/2)] (zdt1_front 3) /\ / 10 ^ 12 < 1/2.
Proof.
  split; [|split; [|split; [|split]]].
  - split; auto. intros [|[|[|i]]] Hi; cbn; try lra; lia.
  - unfold zdt2, zdt_g, mean, vsum, sq. cbn [nth_error tl fold_right length]. replace (INR 2) with 2 by (cbn; ring). do 2 f_equal. f_equal. field.
  - replace (3/4) with (1 - sq (1/2)) by (unfold sq; field). exact (curve_has (fun f => 1 - sq f) 3 (1/2) half_in).
  - exact (curve_has (fun f => 1 - sqrt f) 3 (1/2) half_in).
  - assert (1 < 10 ^ 12) by (cbn; lra). pose proof eps_lt_1. assert (/ 10 ^ 12 < / 2); [|lra]. apply Rinv_lt_contravar; [cbn; lra|cbn; lra].
Qed.

(** * C79 *)
Theorem C79_uf1_uf2_uf3 : forall n, (3 <= n)%nat ->
  let C := graph unit_interval (fun t => 1 - sqrt t) in
  front (in_box n 1 0 1 (-1) 1) (uf1 n) C /\ front (in_box n 1 0 1 (-1) 1) (uf2 n) C /\ front (in_box n 1 0 1 0 1) (uf3 n) C /\
  (forall N u, In u (uf1_front N) -> C u).
Proof.
  intros n Hn C. split; [exact (uf1_front_spec n Hn)|]. split; [exact (uf2_front_spec n Hn)|]. split; [exact (uf3_front_spec n Hn)|]. apply curve_reported.
Qed.
Print Assumptions C79_uf1_uf2_uf3.
Theorem C79_uf4 : forall n, (3 <= n)%nat ->
  let C := graph unit_interval (fun t => 1 - t * t) in front (in_box n 1 0 1 (-2) 2) (uf4 n) C /\ (forall N u, In u (uf4_front N) -> C u).
Proof. intros n Hn C. split; [exact (uf4_front_spec n Hn)|]. apply curve_reported. Qed.
Print Assumptions C79_uf4.
(** UF5: the reported vectors are all optimal ones *)
Theorem C79_uf5 : forall n, (3 <= n)%nat ->
  front (in_box n 1 0 1 (-1) 1) (uf5 n) (graph (grid 20) (fun t => 1 - t)) /\ (forall u, In u uf5_front <-> optimal (in_box n 1 0 1 (-1) 1) (uf5 n) u).
Proof.
  intros n Hn. pose proof (uf5_front_spec n Hn) as H. split; [exact H|]. intros u. rewrite (proj1 H u). unfold uf5_front. rewrite in_map_iff. unfold graph, grid.
  assert (E : INR 20 = 20) by (cbn; ring). rewrite E. split.
  - intros (i & <- & Hi). apply in_seq in Hi. exists (INR i / 20). split; auto. exists i. split; auto; lia.
  - intros (t & (i & Hi & ->) & ->). exists i. split; auto. apply in_seq. lia.
Qed.
Print Assumptions C79_uf5.
(** UF6: of the sampled line exactly the optimal vectors are reported *)
Theorem C79_uf6 : forall n, (3 <= n)%nat ->
  front (in_box n 1 0 1 (-1) 1) (uf6 n) (graph bands (fun t => 1 - t)) /\
  (forall N t, In t (linspace01 N) -> (In [t; 1 - t] (uf6_front N) <-> optimal (in_box n 1 0 1 (-1) 1) (uf6 n) [t; 1 - t])) /\
  (forall N u, In u (uf6_front N) -> exists t, In t (linspace01 N) /\ u = [t; 1 - t]).
Proof.
  intros n Hn. pose proof (uf6_front_spec n Hn) as H. split; [exact H|]. split.
  - intros N t Ht. rewrite (proj1 H). unfold uf6_front. rewrite in_map_iff.
    assert (Hk : uf6_keep t = true <-> bands t).
    { pose proof (linspace_unit N t Ht). unfold uf6_keep, bands. rewrite negb_true_iff, orb_false_iff, !andb_false_iff, !rltb_false. lra. }
    split.
    + intros (t' & E & Hf). injection E as -> _. apply filter_In in Hf. exists t. split; auto. apply Hk. apply Hf.
    + intros (t' & Hb & E). injection E as <- _. exists t. split; auto. apply filter_In. split; auto. apply Hk; auto.
  - intros N u Hu. unfold uf6_front in Hu. apply in_map_iff in Hu. destruct Hu as (t & <- & Ht). apply filter_In in Ht. exists t. tauto.
Qed.
Print Assumptions C79_uf6.
Theorem C79_uf7 : forall n, (3 <= n)%nat ->
  let C := graph unit_interval (fun t => 1 - t) in front (in_box n 1 0 1 (-1) 1) (uf7 n) C /\ (forall N u, In u (uf7_front N) -> C u).
Proof. intros n Hn C. split; [exact (uf7_front_spec n Hn)|]. apply curve_reported. Qed.
Print Assumptions C79_uf7.
Example C79_meets : in_box 3 1 0 1 (-1) 1 [1/2; 0; 1] /\ uf_odd 7 = [2; 4; 6]%nat /\ uf_even 7 = [1; 3; 5]%nat /\ In [1/2; 1/2] (uf7_front 3) /\ ~ bands (1/8) /\ In [1/2; 1 - 1/2] (uf6_front 3).
Proof.
  split; [|split; [reflexivity|split; [reflexivity|split; [|split]]]].
  - split; auto. intros [|[|[|i]]] Hi; cbn; try lra; lia.
  - replace [1/2; 1/2] with [1/2; 1 - 1/2] by (f_equal; f_equal; field). exact (curve_has (fun f => 1 - f) 3 (1/2) half_in).
  - unfold bands. lra.
  - apply (C79_uf6 3 ltac:(lia)); [exact half_in|]. eapply front_optimal; [apply uf6_front_spec; lia|]. exists (1/2). split; auto. unfold bands. lra.
Qed.

(** * C80 *)
Lemma lattice3 p y : (1 <= p)%nat -> lattice 3 p y -> exists a b c, y = [a; b; c] /\ simplex3 a b c.
Proof.
  intros Hp H. destruct (C45_directions 3 p y Hp H) as (Hl & Hf & Ht). destruct y as [|a [|b [|c [|? ?]]]]; try discriminate. exists a, b, c. split; auto.
  inversion Hf as [|? ? H1 Hf1]; subst. inversion Hf1 as [|? ? H2 Hf2]; subst. inversion Hf2 as [|? ? H3 _]; subst. unfold total in Ht. cbn in Ht. unfold simplex3. lra.
Qed.
Lemma sum3_pos a b c : 0 <= a -> 0 <= b -> 0 <= c -> 0 < a + b + c -> 0 < a * a + (b * b + (c * c + 0)).
Proof.
  intros Ha Hb Hc H. pose proof (Rle_0_sqr a) as H1. pose proof (Rle_0_sqr b) as H2. pose proof (Rle_0_sqr c) as H3. unfold Rsqr in *.
  destruct (Rlt_dec 0 a); [pose proof (Rmult_lt_0_compat a a r r); lra|]. destruct (Rlt_dec 0 b); [pose proof (Rmult_lt_0_compat b b r r); lra|].
  assert (r : 0 < c) by lra. pose proof (Rmult_lt_0_compat c c r r). lra.
Qed.
Lemma sphere_row_octant a b c : simplex3 a b c -> octant (map (fun v => v / norm2 [a; b; c]) [a; b; c]).
Proof.
  intros (Ha & Hb & Hc & E). unfold norm2. cbn [fold_right map]. set (q := a * a + (b * b + (c * c + 0))). assert (Hq : 0 < q) by (apply sum3_pos; lra).
  assert (Hs : 0 < sqrt q) by (apply sqrt_lt_R0; auto). assert (Hqq : sqrt q * sqrt q = q) by (apply sqrt_sqrt; lra).
  assert (Hd : forall v, 0 <= v -> 0 <= v / sqrt q) by (intros; apply Rmult_le_pos; auto; apply Rlt_le, Rinv_0_lt_compat; auto).
  do 3 eexists. split; [reflexivity|]. repeat split; auto. set (r := sqrt q) in *. replace (a / r * (a / r) + b / r * (b / r) + c / r * (c / r)) with (q / (r * r)) by (unfold q; field; lra).
  rewrite Hqq. field. lra.
Qed.
Theorem C80_uf8_uf10 : forall n, (5 <= n)%nat ->
  front (in_box n 2 0 1 (-2) 2) (uf8 n) octant /\ front (in_box n 2 0 1 (-2) 2) (uf10 n) octant /\
  (forall fuel N, (N + 496 < fuel)%nat -> exists dirs, get_ref_dirs fuel 3 (Some N) None = Ok dirs /\ dirs <> [] /\ forall u, In u (generic_sphere dirs) -> octant u).
Proof.
  intros n Hn. split; [apply uf8_front_spec; auto|]. split; [apply uf10_front_spec; auto|]. intros fuel N Hf.
  destruct (C45_lattice fuel 3 (Some N) (match N with S k => S k | O => 496%nat end)) as (p & D & E & Hp & _ & HD & _ & Hlen & _); [lia|destruct N; lia|destruct N; reflexivity|].
  exists D. split; auto. split; [intros ->; destruct N; cbn in Hlen; lia|]. intros u Hu. unfold generic_sphere in Hu. apply in_map_iff in Hu. destruct Hu as (y & <- & Hy).
  apply HD in Hy. destruct (lattice3 p y Hp Hy) as (a & b & c & -> & Hs). apply sphere_row_octant; auto.
Qed.
Print Assumptions C80_uf8_uf10.
Theorem C80_uf9 : forall n, (5 <= n)%nat ->
  let C := fun u => exists a b c, u = [a; b; c] /\ simplex3 a b c /\ (4 * a <= 1 - c \/ 3 * (1 - c) <= 4 * a) in
  front (in_box n 2 0 1 (-2) 2) (uf9 n) C /\
  (forall fuel N, (N + 496 < fuel)%nat -> exists dirs, get_ref_dirs fuel 3 (Some N) None = Ok dirs /\ forall u, In u dirs -> (In u (uf9_front dirs) <-> C u)).
Proof.
  intros n Hn C. split; [apply uf9_front_spec; auto|]. intros fuel N Hf.
  destruct (C45_lattice fuel 3 (Some N) (match N with S k => S k | O => 496%nat end)) as (p & D & E & Hp & _ & HD & _ & _ & _); [lia|destruct N; lia|destruct N; reflexivity|].
  exists D. split; auto. intros u Hu. unfold uf9_front. rewrite filter_In. destruct (lattice3 p u Hp (proj1 (HD u) Hu)) as (a & b & c & -> & Hs).
  assert (Hk : uf9_keep [a; b; c] = true <-> (4 * a <= 1 - c \/ 3 * (1 - c) <= 4 * a)).
  { unfold uf9_keep. cbn [nth]. rewrite negb_true_iff, andb_false_iff, !rltb_false. lra. }
  rewrite Hk. split; [intros (_ & H); exists a, b, c; auto|]. intros (a' & b' & c' & Eq & _ & H). injection Eq as <- <- <-. auto.
Qed.
Print Assumptions C80_uf9.
Example C80_meets : in_box 5 2 0 1 (-2) 2 [1/2; 1/4; 0; -1; 2] /\ uf_groups 9 = ([3; 6], [4; 7], [2; 5; 8])%nat /\ octant [0.6; 0; 0.8] /\ simplex3 (1/2) (1/4) (1/4) /\ uf9_keep [1/2; 1/4; 1/4] = false.
Proof.
  split; [|split; [reflexivity|split; [|split]]].
  - split; auto. intros [|[|[|[|[|i]]]]] Hi; cbn; try lra; lia.
  - exists 0.6, 0, 0.8. repeat split; lra.
  - unfold simplex3. lra.
  - unfold uf9_keep. cbn [nth]. apply negb_false_iff, andb_true_iff. rewrite !rltb_true. lra.
Qed.

(** * C81 *)
(** CF1 has 21 optimal vectors *)
Theorem C81_cf1 : forall n, (4 <= n)%nat -> Nat.even n = true ->
  front (con_obj (in_box n 0 0 0 0 1) (cf1 n) cf1_con) (cf1 n) (graph (grid 20) (fun t => 1 - t)).
Proof. exact cf1_front_spec. Qed.
Print Assumptions C81_cf1.
(** of the reported vectors those with another first objective are not optimal *)
Theorem C81_cf1_refuted : forall n N, (4 <= n)%nat -> Nat.even n = true ->
  (forall t, In t (linspace01 N) -> ~ grid 20 t -> ~ attained (con_obj (in_box n 0 0 0 0 1) (cf1 n) cf1_con) (cf1 n) [t; 1 - t]) /\
  (exists t, In [t; 1 - t] (cf1_front 1000) /\ ~ grid 20 t).
Proof.
  intros n N Hn He. split.
  - intros t Ht Hg (x & (_ & v & E1 & Hc) & E2). rewrite E2 in E1. injection E1 as <-. unfold cf1_con in Hc. cbn [nth] in Hc.
    replace (10 * PI * (t - (1 - t) + 1)) with (20 * PI * t) in Hc by ring.
    destruct (near_grid 20 t ltac:(lia) (linspace_unit N t Ht)) as (k & Hk & Hd). assert (E20 : INR 20 = 20) by (cbn; ring). rewrite E20 in Hd.
    apply Hg. replace t with k; auto. pose proof (Rabs_pos (t - k)). assert (Hz : Rabs (t - k) = 0) by lra. destruct (Req_dec (t - k) 0); [lra|]. apply Rabs_no_R0 in H0. contradiction.
  - exists (INR 1 / INR (1000 - 1)). split.
    + refine (curve_has (fun f => 1 - f) 1000 _ _). unfold linspace01. apply in_map_iff. exists 1%nat. split; [reflexivity|]. apply in_seq. lia.
    + intros (i & Hi & E). assert (E20 : INR 20 = 20) by (cbn; ring). rewrite E20 in E. assert (E9 : INR (1000 - 1) = 999).
      { rewrite INR_IZR_INZ. reflexivity. }
      rewrite E9 in E. cbn [INR] in E. assert (INR i * 999 = 20) by lra.
      destruct i as [|i]; [cbn in H; lra|]. pose proof (pos_INR i). rewrite S_INR in H. lra.
Qed.
Print Assumptions C81_cf1_refuted.
(** CF2: every reported vector is optimal; the optimal vector (0, 1) is never reported *)
Theorem C81_cf2 : forall n, (4 <= n)%nat -> Nat.even n = true ->
  let F := con_obj (in_box n 1 0 1 (-1) 1) (cf2 n) cf2_con in
  front F (cf2 n) (graph (fun t => exists k, bands k /\ t = k * k) (fun t => 1 - sqrt t)) /\
  (forall N u, In u (cf2_front N) -> optimal F (cf2 n) u) /\
  optimal F (cf2 n) [0; 1] /\ (forall N, ~ In [0; 1] (cf2_front N)).
Proof.
  intros n Hn He F. pose proof (cf2_front_spec n Hn He) as H. split; [exact H|]. split; [|split].
  - intros N u Hu. eapply front_optimal; [exact H|]. unfold cf2_front in Hu. apply in_map_iff in Hu. destruct Hu as (t & <- & Ht). apply filter_In in Ht. destruct Ht as (Ht & Hk).
    pose proof (linspace_unit N t Ht). exists t. split; auto. exists (sqrt t). assert (Es : sqrt t * sqrt t = t) by (apply sqrt_sqrt; lra). split; auto. pose proof (sqrt_pos t).
    unfold cf2_keep in Hk. rewrite orb_true_iff, !andb_true_iff, !rleb_true in Hk. destruct Hk as [Hk|Hk]; [right; left|right; right]; nra.
  - eapply front_optimal; [exact H|]. exists 0. split; [exists 0; split; [left; auto|ring]|]. rewrite sqrt_0. f_equal. f_equal. ring.
  - intros N Hu. unfold cf2_front in Hu. apply in_map_iff in Hu. destruct Hu as (t & E & Ht). injection E as -> _. apply filter_In in Ht. destruct Ht as (_ & Hk).
    unfold cf2_keep in Hk. rewrite orb_true_iff, !andb_true_iff, !rleb_true in Hk. lra.
Qed.
Print Assumptions C81_cf2.
(** CF3: of the sampled curve exactly the optimal vectors are reported *)
Theorem C81_cf3 : forall n, (4 <= n)%nat -> Nat.even n = true ->
  let F := con_obj (in_box n 1 0 1 (-2) 2) (cf3 n) cf3_con in
  front F (cf3 n) (graph (fun t => 0 <= t /\ bands (t * t)) (fun t => 1 - t * t)) /\
  (forall N t, In t (linspace01 N) -> (In [t; 1 - t * t] (cf3_front N) <-> optimal F (cf3 n) [t; 1 - t * t])).
Proof.
  intros n Hn He F. pose proof (cf3_front_spec n Hn He) as H. split; [exact H|]. intros N t Ht. subst F. rewrite (proj1 H). unfold cf3_front. rewrite in_map_iff.
  assert (Hk : cf3_keep t = true <-> 0 <= t /\ bands (t * t)).
  { pose proof (linspace_unit N t Ht) as Hu. unfold cf3_keep, bands. rewrite negb_true_iff, orb_false_iff, !andb_false_iff, !rltb_false.
    assert (H1 : sqrt (1/2) * sqrt (1/2) = 1/2) by (apply sqrt_sqrt; lra). assert (H2 : sqrt (3/4) * sqrt (3/4) = 3/4) by (apply sqrt_sqrt; lra).
    pose proof (sqrt_pos (1/2)). pose proof (sqrt_pos (3/4)).
    assert (A1 : t <= sqrt (1/2) <-> t * t <= 1/2) by (split; intros; nra). assert (A2 : sqrt (3/4) <= t <-> 3/4 <= t * t) by (split; intros; nra).
    assert (A3 : 1/2 <= t <-> 1/4 <= t * t) by (split; intros; nra). assert (A4 : t <= 0 <-> t * t = 0) by (split; intros; nra). assert (A5 : t * t <= 1) by nra. rewrite A1, A2, A3, A4. lra. }
  split.
  - intros (t' & E & Hf). injection E as -> _. apply filter_In in Hf. exists t. split; auto. apply Hk. apply Hf.
  - intros (t' & Hb & E). injection E as <- _. exists t. split; auto. apply filter_In. split; auto. apply Hk; auto.
Qed.
Print Assumptions C81_cf3.
Theorem C81_cf4_cf5 : forall n, (4 <= n)%nat -> Nat.even n = true ->
  let C := graph unit_interval (fun t => if Rlt_dec 0.75 t then 1.125 - t else if Rlt_dec 0.5 t then 0.75 - 0.5 * t else 1 - t) in
  front (con_one (in_box n 1 0 1 (-2) 2) (cf4_con n)) (cf4 n) C /\ front (con_one (in_box n 1 0 1 (-2) 2) (cf5_con n)) (cf5 n) C /\
  (forall N u, In u (cf4_front N) -> C u).
Proof.
  intros n Hn He C. assert (HC : forall u, C u <-> graph unit_interval cf4_phi u).
  { assert (E : forall t, (if Rlt_dec 0.75 t then 1.125 - t else if Rlt_dec 0.5 t then 0.75 - 0.5 * t else 1 - t) = cf4_phi t).
    { intros t. unfold cf4_phi, rltb. destruct (Rlt_dec 0.75 t); [lra|]. destruct (Rlt_dec 0.5 t); lra. }
    intros u. unfold C, graph. split; intros (t & Ht & ->); exists t; rewrite E; auto. }
  assert (Hx : forall F f, front F f (graph unit_interval cf4_phi) -> front F f C).
  { intros F f (H1 & H2). split; [intros u; rewrite HC; apply H1|]. intros x Fx. destruct (H2 x Fx) as (v & Ev & u & Hu & Hw). exists v. split; auto. exists u. rewrite HC. auto. }
  split; [apply Hx, cf4_front_spec; auto|]. split; [apply Hx, cf5_front_spec; auto|]. intros N u Hu. apply HC. apply (curve_reported cf4_phi N); auto.
Qed.
Print Assumptions C81_cf4_cf5.
Theorem C81_cf6_cf7 : forall n, (4 <= n)%nat -> Nat.even n = true ->
  let C := graph unit_interval (fun t => if Rlt_dec 0.75 t then 0.25 * sqrt (1 - t) else if Rlt_dec 0.5 t then 0.5 * (1 - t) else (1 - t) * (1 - t)) in
  front (con_all (in_box n 1 0 1 (-2) 2) (cf6_con n)) (cf6 n) C /\ front (con_all (in_box n 1 0 1 (-2) 2) (cf7_con n)) (cf7 n) C /\
  (forall N u, In u (cf6_front N) -> C u).
Proof.
  intros n Hn He C. assert (HC : forall u, C u <-> graph unit_interval cf6_phi u).
  { assert (E : forall t, (if Rlt_dec 0.75 t then 0.25 * sqrt (1 - t) else if Rlt_dec 0.5 t then 0.5 * (1 - t) else (1 - t) * (1 - t)) = cf6_phi t).
    { intros t. unfold cf6_phi, rltb, sq. destruct (Rlt_dec 0.75 t); [lra|]. destruct (Rlt_dec 0.5 t); lra. }
    intros u. unfold C, graph. split; intros (t & Ht & ->); exists t; rewrite E; auto. }
  assert (Hx : forall F f, front F f (graph unit_interval cf6_phi) -> front F f C).
  { intros F f (H1 & H2). split; [intros u; rewrite HC; apply H1|]. intros x Fx. destruct (H2 x Fx) as (v & Ev & u & Hu & Hw). exists v. split; auto. exists u. rewrite HC. auto. }
  split; [apply Hx, cf6_front_spec; auto|]. split; [apply Hx, cf7_front_spec; auto|]. intros N u Hu. apply HC. apply (curve_reported cf6_phi N); auto.
Qed.
Print Assumptions C81_cf6_cf7.
Example C81_meets : Nat.even 10 = true /\ grid 20 (3/20) /\ ~ grid 20 (1/8) /\ bands (1/3) /\ In [1/2; 1 - 1/2 * (1/2)] (cf3_front 3) /\ cf_J1 10 = [2; 4; 6; 8]%nat /\ cf_J2 10 = [1; 3; 5; 7; 9]%nat.
Proof.
  assert (E20 : INR 20 = 20) by (cbn; ring).
  split; [reflexivity|]. split; [exists 3%nat; split; [lia|]; rewrite E20; cbn; lra|]. split.
  { intros (i & Hi & E). rewrite E20 in E. assert (H : INR i = 5 / 2) by lra. destruct i as [|[|[|i]]]; [cbn in H; lra|cbn in H; lra|cbn in H; lra|]. rewrite !S_INR in H. pose proof (pos_INR i). lra. }
  split; [unfold bands; lra|]. split; [|split; reflexivity].
  apply (C81_cf3 4 ltac:(lia) eq_refl); [exact half_in|]. eapply front_optimal; [apply cf3_front_spec; auto|]. exists (1/2). split; auto. split; [lra|]. unfold bands. lra.
Qed.

(** * C82 *)
Theorem C82_cf8 : forall n, (5 <= n)%nat -> front (con_ratio (in_box n 2 0 1 (-4) 4) (cf8 n) cf8_con) (cf8 n) (arcs (grid 4)).
Proof. exact cf8_front_spec. Qed.
Print Assumptions C82_cf8.
Lemma fold_max_one l a : a <= 1 -> Forall (fun b => b <= 1) l -> (a = 1 \/ In 1 l) -> fold_left Rmax l a = 1.
Proof.
  revert a. induction l as [|b l IH]; intros a Ha Hl H; cbn.
  - destruct H as [H|[]]; auto.
  - inversion Hl; subst. apply IH; auto; [apply Rmax_lub; auto|]. destruct H as [->|[->|H]]; [left; apply Rmax_left; auto|left; apply Rmax_right; auto|right; auto].
Qed.
(** the second column of the reported front is 1 throughout, and (1, 1, 0) is dominated *)
Theorem C82_cf8_refuted : forall n N, (5 <= n)%nat -> (1 <= N)%nat ->
  (forall u, In u (cf8_front N) -> nth 1 u 0 = 1) /\ (exists u, In u (cf8_front N) /\ ~ optimal (con_ratio (in_box n 2 0 1 (-4) 4) (cf8 n) cf8_con) (cf8 n) u).
Proof.
  intros n N Hn HN. unfold cf8_front. set (k := ((N + 4) / 5)%nat). assert (Hk : (1 <= k)%nat) by (apply Nat.div_le_lower_bound; lia).
  set (blk := fun i : nat => map (fun t => let s := sin (t * PI / 2) in (sqrt (INR i / 4 * (1 - sq s)), s)) (linspace01 k)).
  change (concat (map _ (seq 0 5))) with (concat (map blk (seq 0 5))). set (rows := concat (map blk (seq 0 5))).
  assert (Hin : forall i, (i <= 4)%nat -> In (sqrt (INR i / 4 * (1 - sq 0)), 0) rows).
  { intros i Hi. unfold rows. apply in_concat. exists (blk i). split; [apply in_map; apply in_seq; lia|]. unfold blk. apply in_map_iff. exists 0. split; [|apply linspace_zero; auto].
    cbv zeta. replace (0 * PI / 2) with 0 by field. rewrite sin_0. reflexivity. }
  assert (Hle : Forall (fun b => b <= 1) (map (fun r : R * R => 1 - sq (fst r) - sq (snd r)) rows)).
  { apply Forall_map, Forall_forall. intros r _. pose proof (sq_nonneg (fst r)). pose proof (sq_nonneg (snd r)). lra. }
  assert (H1 : In 1 (map (fun r : R * R => 1 - sq (fst r) - sq (snd r)) rows)).
  { apply in_map_iff. exists (sqrt (INR 0 / 4 * (1 - sq 0)), 0). split; [|apply Hin; lia]. cbn [fst snd]. replace (INR 0 / 4 * (1 - sq 0)) with 0 by (cbn; field). rewrite sqrt_0, sq_zero. ring. }
  destruct (map (fun r : R * R => 1 - sq (fst r) - sq (snd r)) rows) as [|a l] eqn:El; [destruct H1|]. inversion Hle as [|? ? Ha Hl]; subst.
  rewrite (fold_max_one l a Ha Hl) by exact H1. rewrite sqrt_1. split.
  - intros u Hu. apply in_map_iff in Hu. destruct Hu as (r & <- & _). reflexivity.
  - exists [1; 1; 0]. split.
    + apply in_map_iff. exists (sqrt (INR 4 / 4 * (1 - sq 0)), 0). split; [|apply Hin; lia]. cbn [fst snd]. replace (INR 4 / 4 * (1 - sq 0)) with 1 by (unfold sq; cbn; field). rewrite sqrt_1. reflexivity.
    + intros Ho. apply (proj1 (cf8_front_spec n Hn)) in Ho. apply arcs_octant in Ho; [|intros; apply (grid_unit 4); auto; lia]. destruct Ho as (x & y & z & E & _ & _ & _ & Hs). injection E as <- <- <-. lra.
Qed.
Print Assumptions C82_cf8_refuted.
Theorem C82_cf9_cf10 : forall n, (5 <= n)%nat ->
  front (con_ratio (in_box n 2 0 1 (-2) 2) (cf9 n) cf9_con) (cf9 n) (arcs bands) /\ front (con_ratio (in_box n 2 0 1 (-2) 2) (cf10 n) cf10_con) (cf10 n) (arcs bands).
Proof. intros n Hn. split; [apply cf9_front_spec; auto|apply cf10_front_spec; auto]. Qed.
Print Assumptions C82_cf9_cf10.
(** a sample of three numbers that are not negative, and not all 0 *)
Definition sample_row (r : list R) : Prop := exists a b c, r = [a; b; c] /\ 0 <= a /\ 0 <= b /\ 0 <= c /\ 0 < a + b + c.
Lemma sample_octant r : sample_row r -> octant (map (fun v => v / norm2 r) r).
Proof.
  intros (a & b & c & -> & Ha & Hb & Hc & Hs). unfold norm2. cbn [fold_right map]. set (q := a * a + (b * b + (c * c + 0))). assert (Hq : 0 < q) by (apply sum3_pos; lra).
  assert (Hs' : 0 < sqrt q) by (apply sqrt_lt_R0; auto). assert (Hqq : sqrt q * sqrt q = q) by (apply sqrt_sqrt; lra).
  assert (Hd : forall v, 0 <= v -> 0 <= v / sqrt q) by (intros; apply Rmult_le_pos; auto; apply Rlt_le, Rinv_0_lt_compat; auto).
  do 3 eexists. split; [reflexivity|]. repeat split; auto. set (t := sqrt q) in *. replace (a / t * (a / t) + b / t * (b / t) + c / t * (c / t)) with (q / (t * t)) by (unfold q; field; lra).
  rewrite Hqq. field. lra.
Qed.
(** what is reported above the tolerance is optimal *)
Theorem C82_cf9_reported : forall Smp u, Forall sample_row Smp -> In u (cf9_front Smp) -> (nth 0 u 0 = 0 \/ / 10 ^ 5 < nth 0 u 0) -> nth 2 u 0 < 1 -> arcs bands u.
Proof.
  intros Smp u HS Hu H0 H2. unfold cf9_front in Hu. apply filter_In in Hu. destruct Hu as (Hu & Hk). unfold generic_sphere in Hu. apply in_map_iff in Hu. destruct Hu as (r & <- & Hr).
  rewrite Forall_forall in HS. destruct (sample_octant r (HS r Hr)) as (a & b & c & E & Ha & Hb & Hc & Hs). rewrite E in *. cbn [nth] in *. clear E.
  assert (Hd : 0 < 1 - c * c) by nra. set (d := 1 - c * c) in *. exists (a * a / d), c. assert (Ed : a * a / d * d = a * a) by (field; lra).
  assert (Hb2 : (1 - a * a / d) * d = b * b) by (replace ((1 - a * a / d) * d) with (d - a * a / d * d) by ring; rewrite Ed; unfold d; lra).
  split; [|split; [lra|]].
  - unfold cf9_drop in Hk. cbn [nth] in Hk. cbv zeta in Hk. unfold sq in Hk. fold d in Hk. rewrite negb_true_iff, orb_false_iff, !andb_false_iff, !rltb_false in Hk. destruct Hk as (K1 & K2).
    assert (R1 : forall v, 0 <= v -> (sqrt v <= a -> v <= a * a) /\ (a <= sqrt v -> a * a <= v)).
    { intros v Hv. assert (sqrt v * sqrt v = v) by (apply sqrt_sqrt; auto). pose proof (sqrt_pos v). split; intros; nra. }
    assert (Hle1 : a * a <= d) by (unfold d; nra).
    assert (Q : forall v, v * d <= a * a <-> v <= a * a / d) by (intros v; split; intros; [apply Rmult_le_reg_r with d; lra|apply Rmult_le_compat_r with (r := d) in H; lra]).
    assert (Q' : forall v, a * a <= v * d <-> a * a / d <= v) by (intros v; split; intros; [apply Rmult_le_reg_r with d; lra|apply Rmult_le_compat_r with (r := d) in H; lra]).
    destruct (R1 (d / 4) ltac:(lra)) as (A1 & _). destruct (R1 (d / 2) ltac:(lra)) as (_ & A2). destruct (R1 (3 * d / 4) ltac:(lra)) as (A3 & _).
    destruct H0 as [->|H0]; [left; unfold Rdiv; ring|]. destruct K1 as [K1|K1]; [lra|]. specialize (A1 K1).
    destruct K2 as [K2|K2]; [specialize (A2 K2); right; left|specialize (A3 K2); right; right]; (split; [apply Q; lra|apply Q'; lra]).
  - fold d. rewrite Ed, Hb2. rewrite !sqrt_square by auto. reflexivity.
Qed.
Print Assumptions C82_cf9_reported.
(** the tolerance keeps vectors that no feasible point has *)
Theorem C82_cf9_tolerance_refuted : exists Smp u, Forall sample_row Smp /\ Forall (Forall (fun a => a < 1)) Smp /\ In u (cf9_front Smp) /\
  forall n, ~ attained (con_ratio (in_box n 2 0 1 (-2) 2) (cf9 n) cf9_con) (cf9 n) u /\ ~ attained (con_ratio (in_box n 2 0 1 (-2) 2) (cf10 n) cf10_con) (cf10 n) u.
Proof.
  set (r := [/ 10 ^ 6; 0.6; 0.8]). exists [r], (map (fun v => v / norm2 r) r).
  assert (Hr : sample_row r). { exists (/ 10 ^ 6), 0.6, 0.8. assert (0 < / 10 ^ 6) by (apply Rinv_0_lt_compat; cbn; lra). repeat split; lra. }
  assert (Hn1 : 1 <= norm2 r < 2).
  { unfold norm2, r. cbn [fold_right]. assert (0 < / 10 ^ 6 < 1). { split; [apply Rinv_0_lt_compat; cbn; lra|]. rewrite <- Rinv_1. apply Rinv_lt_contravar; cbn; lra. }
    set (q := / 10 ^ 6 * / 10 ^ 6 + (0.6 * 0.6 + (0.8 * 0.8 + 0))). assert (1 <= q < 4) by (unfold q; nra). split.
    - rewrite <- sqrt_1. apply sqrt_le_1_alt. lra.
    - replace 2 with (sqrt (2 * 2)) by (apply sqrt_square; lra). apply sqrt_lt_1; lra. }
  split; [constructor; auto|]. split; [constructor; [|constructor]; unfold r; repeat constructor; try lra; rewrite <- Rinv_1; apply Rinv_lt_contravar; cbn; lra|].
  destruct (sample_octant r Hr) as (a & b & c & E & Ha & Hb & Hc & Hs). rewrite E.
  assert (Ea : a = / 10 ^ 6 / norm2 r /\ c = 0.8 / norm2 r) by (unfold r in E at 2; cbn [map] in E; injection E; auto). destruct Ea as (Ea & Ecc).
  assert (Pn : 0 < / norm2 r <= 1) by (split; [apply Rinv_0_lt_compat; lra|rewrite <- Rinv_1; apply Rinv_le_contravar; lra]).
  assert (P6 : 0 < / 10 ^ 6) by (apply Rinv_0_lt_compat; cbn; lra). assert (Ha0 : 0 < a) by (rewrite Ea; apply Rmult_lt_0_compat; lra).
  assert (Hc8 : c <= 0.8) by (rewrite Ecc; unfold Rdiv; nra). assert (Ha6 : a <= / 10 ^ 6) by (rewrite Ea; unfold Rdiv; nra).
  assert (P56 : / 10 ^ 6 < / 10 ^ 5) by (apply Rinv_lt_contravar; cbn; lra).
  assert (P5 : / 10 ^ 5 < 0.1) by (replace 0.1 with (/ 10) by lra; apply Rinv_lt_contravar; cbn; lra).
  assert (Hd : 0.36 <= 1 - c * c) by nra. split.
  - unfold cf9_front. apply filter_In. split; [unfold generic_sphere; cbn [map]; left; exact E|]. unfold cf9_drop. cbn [nth]. cbv zeta. rewrite negb_true_iff, orb_false_iff, !andb_false_iff, !rltb_false.
    split; [left; lra|]. left. unfold sq. apply Rle_trans with (sqrt (0.1 * 0.1)); [rewrite sqrt_square; lra|]. apply sqrt_le_1_alt. lra.
  - intros n. assert (Hno : forall h : R -> R, (forall w, 0 < sin w -> 0 < h w) -> forall v, ratio_con h [a; b; c] = Some v -> 0 < v).
    { intros h Hh v Ev. unfold ratio_con in Ev. cbv zeta in Ev. cbn [nth] in Ev. unfold sq in Ev. set (d := 1 - c * c) in *. destruct (reqb d 0); [discriminate|]. injection Ev as <-.
      replace ((a * a + b * b) / d) with 1 by (replace (a * a + b * b) with d by (unfold d; lra); field; lra).
      assert (Hk : 0 < a * a / d < 1/4).
      { split; [apply Rmult_lt_0_compat; [nra|apply Rinv_0_lt_compat; lra]|]. apply Rmult_lt_reg_r with d; [lra|]. unfold Rdiv at 1. rewrite Rmult_assoc, Rinv_l by lra. nra. }
      assert (Hp : 0 < sin (4 * PI * (a * a / d))). { apply not_bands_sin; [lra|]. unfold bands. lra. }
      replace (2 * PI * ((a * a - b * b) / d + 1)) with (4 * PI * (a * a / d)).
      2:{ replace (b * b) with (d - a * a) by (unfold d; lra). field. lra. }
      specialize (Hh _ Hp). lra. }
    split; intros (x & (_ & v & w & E1 & E2 & Hw) & E3); rewrite E3 in E1; injection E1 as <-.
    + pose proof (Hno (fun t => 3 * sin t) ltac:(intros; lra) w E2). lra.
    + pose proof (Hno sin ltac:(auto) w E2). lra.
Qed.
Print Assumptions C82_cf9_tolerance_refuted.
Example C82_meets : arcs bands [sqrt (1/4 * (1 - 0.6 * 0.6)); sqrt ((1 - 1/4) * (1 - 0.6 * 0.6)); 0.6] /\ sample_row [1/2; 1/3; 0] /\ in_box 5 2 0 1 (-2) 2 [1; 0; 0; 0; 0].
Proof.
  split; [exists (1/4), 0.6; split; [unfold bands; lra|split; [lra|auto]]|]. split; [exists (1/2), (1/3), 0; repeat split; lra|].
  split; auto. intros [|[|[|[|[|i]]]]] Hi; cbn; try lra; lia.
Qed.

(** * C83 *)
(** an even number of variables: the two groups contain every variable but the first, once *)
Theorem C83_even : forall n, Nat.even n = true -> NoDup (cf_J1 n ++ cf_J2 n) /\ forall i, In i (cf_J1 n ++ cf_J2 n) <-> (1 <= i < n)%nat.
Proof.
  intros n He. split.
  - assert (Hnd : forall a b, NoDup (arange a b 2)). { intros a b. unfold arange. apply FinFun.Injective_map_NoDup; [intros x y; lia|apply seq_NoDup]. }
    assert (Hm : forall l, (forall j, In j l -> (1 <= j)%nat) -> NoDup l -> NoDup (map (fun j => (j - 1)%nat) l)).
    { intros l Hl H. induction H as [|j l Hj H IH]; cbn; constructor.
      - intros Hin. apply in_map_iff in Hin. destruct Hin as (j' & E & Hj'). apply Hj. assert (1 <= j')%nat by (apply Hl; right; auto). assert (1 <= j)%nat by (apply Hl; left; auto). replace j with j' by lia. auto.
      - apply IH. intros; apply Hl; right; auto. }
    assert (N1 : NoDup (cf_J1 n)). { apply Hm; auto. intros j Hj. apply arange_in in Hj; [|lia]. destruct Hj as (k & -> & _). lia. }
    assert (N2 : NoDup (cf_J2 n)). { apply Hm; auto. intros j Hj. apply arange_in in Hj; [|lia]. destruct Hj as (k & -> & _). lia. }
    assert (Hdis : forall i, In i (cf_J1 n) -> ~ In i (cf_J2 n)). { intros i H1 H2. apply cf_J1_spec in H1. apply cf_J2_spec in H2. destruct H1 as (_ & H1). destruct H2 as (_ & H2). rewrite <- Nat.negb_even, H1 in H2. discriminate. }
    clear - N1 N2 Hdis. induction (cf_J1 n) as [|a l IH]; [exact N2|]. cbn. inversion N1; subst. constructor.
    + intros H. apply in_app_iff in H. destruct H; [contradiction|]. apply (Hdis a); [left; auto|auto].
    + apply IH; auto. intros i Hi. apply Hdis. right; auto.
  - intros i. rewrite in_app_iff, cf_J1_spec, cf_J2_spec. apply Nat.even_spec in He. destruct He as (m & ->). split.
    + intros [(H & _)|(H & Ho)]; [lia|]. apply Nat.odd_spec in Ho. destruct Ho as (k & ->). lia.
    + intros H. destruct (Nat.even i) eqn:E; [left|right].
      * split; auto. apply Nat.even_spec in E. destruct E as (k & ->). lia.
      * rewrite <- Nat.negb_even, E. split; auto. lia.
Qed.
Print Assumptions C83_even.
(** an odd number: the last variable is in neither group, and the second group names a variable that does not exist *)
Theorem C83_odd_refuted : forall n, (3 <= n)%nat -> Nat.odd n = true -> ~ In (n - 1)%nat (cf_J1 n ++ cf_J2 n) /\ In n (cf_J2 n) /\
  (forall x, length x = n -> cf1 n x = None /\ cf2 n x = None /\ cf3 n x = None /\ cf4 n x = None /\ cf5 n x = None /\ cf6 n x = None /\ cf7 n x = None).
Proof.
  intros n Hn Ho. pose proof Ho as Ho'. apply Nat.odd_spec in Ho'. destruct Ho' as (m & Em).
  assert (HJ : In n (cf_J2 n)) by (apply cf_J2_spec; split; auto; lia). split; [|split; auto].
  - rewrite in_app_iff, cf_J1_spec, cf_J2_spec. intros [(H & _)|(_ & H)]; [lia|]. replace (n - 1)%nat with (2 * m)%nat in H by lia. rewrite Nat.odd_mul in H. cbn in H. discriminate.
  - assert (Ht : forall (y : list R), length y = n -> take y (cf_J2 n) = None).
    { intros y Hy. induction (cf_J2 n) as [|i l IH]; [destruct HJ|]. cbn [take]. destruct HJ as [->|HJ].
      - replace (nth_error y n) with (@None R); auto. symmetry. apply nth_error_None. lia.
      - destruct (nth_error y i); auto. rewrite IH by auto. reflexivity. }
    assert (Hcl : forall lo hi x, length lo = n -> length hi = n -> length x = n -> length (clip lo hi x) = n). { intros. unfold clip. rewrite map_length, !combine_length. lia. }
    assert (Hb : forall k a b, (k <= n)%nat -> length (bounds n k a b) = n) by (intros; apply bounds_length; auto).
    intros x Hx. unfold cf1, cf2, cf3, cf4, cf5, cf6, cf7, cf4_h. cbv zeta.
    repeat split;
      (match goal with |- context [nth_error ?l 0] => destruct (nth_error l 0); [|reflexivity] end);
      (match goal with |- context [take ?l (cf_J1 n)] => destruct (take l (cf_J1 n)); [|reflexivity] end);
      rewrite Ht; auto; repeat (rewrite ?map_length, ?enum_length, ?minus_at_length); auto; apply Hcl; auto; apply Hb; lia.
Qed.
Print Assumptions C83_odd_refuted.
Example C83_meets : Nat.even 8 = true /\ cf_J1 8 ++ cf_J2 8 = [2; 4; 6; 1; 3; 5; 7]%nat /\ Nat.odd 9 = true /\ cf_J1 9 = [2; 4; 6]%nat /\ cf_J2 9 = [1; 3; 5; 7; 9]%nat.
Proof. repeat split. Qed.
