(** The fronts of the problems of misc.py. *)
From Coq Require Import List Arith Bool Lia Reals Lra Psatz.
From Verif Require Import ListAux ProbModel NewtonModel BenchModel BenchSpec BenchBase ConvModel ConvSpec ConvProof ConvMain.
Import ListNotations.
Open Scope R_scope.

(** C89: CONV3 *)
Theorem C89_conv3_front : forall lo hi, lo <= -1 -> 1 <= hi -> front (in_box 3 3 lo hi 0 0) conv3 (distances triangle corners3).
Proof. exact conv3_front_lemma. Qed.
Print Assumptions C89_conv3_front.
Theorem C89_conv3_reported : forall w lo hi, lo <= -1 -> 1 <= hi -> draws 3 w ->
  exists fr, conv3_front w = Some fr /\ length fr = length w /\ forall u, In u fr -> optimal (in_box 3 3 lo hi 0 0) conv3 u.
Proof. exact conv3_reported. Qed.
Print Assumptions C89_conv3_reported.
Example C89_example : draws 3 [[/ 2; 0; / 4]; [1; 1; 1]] /\ triangle [0; 0; 0] /\ ~ triangle [0; 0; -1] /\ in_box 3 3 (-3) 3 0 0 [0; 0; -1].
Proof.
  split; [|split; [|split]].
  - repeat (apply Forall_cons; [split; [reflexivity|]; split; [repeat (apply Forall_cons; [lra|]); apply Forall_nil|cbn; lra]|]). apply Forall_nil.
  - exists (/ 2), (/ 2), 0. split; [apply weights3; lra|]. repeat (apply (f_equal2 (@cons R)); [lra|]). reflexivity.
  - intros (a & b & c & Hw & E). apply weights3 in Hw. injection E as E1 E2 E3. lra.
  - apply in_box3. lra.
Qed.

(** C90: CONV4 and CONV4_2F *)
Theorem C90_conv4_front : forall lo hi, lo <= 0 -> 1 <= hi -> front (in_box 4 4 lo hi 0 0) conv4 (distances tetrahedron corners4).
Proof. exact conv4_front_lemma. Qed.
Print Assumptions C90_conv4_front.
Theorem C90_conv4_reported : forall w lo hi, lo <= 0 -> 1 <= hi -> draws 4 w ->
  exists fr, conv4_front w = Some fr /\ length fr = length w /\ forall u, In u fr -> optimal (in_box 4 4 lo hi 0 0) conv4 u.
Proof. exact conv4_reported. Qed.
Print Assumptions C90_conv4_reported.
Theorem C90_conv4_2f_front : forall lo hi, lo <= -1 -> 1 <= hi -> front (in_box 4 4 lo hi 0 0) conv4_2f front2f.
Proof. exact conv4_2f_front_lemma. Qed.
Print Assumptions C90_conv4_2f_front.
Theorem C90_conv4_2f_reported : forall w1 w2 lo hi, lo <= -1 -> 1 <= hi -> draws 4 w1 -> draws 4 w2 -> mixed w2 ->
  exists fr, conv4_2f_front w1 w2 = Some fr /\ length fr = (length w1 + length w2)%nat /\ forall u, In u fr -> optimal (in_box 4 4 lo hi 0 0) conv4_2f u.
Proof. exact conv4_2f_reported. Qed.
Print Assumptions C90_conv4_2f_reported.
(** without the hypothesis on the second rows a reported vector is dominated *)
Theorem C90_corner_refuted : exists w2 fr u, draws 4 w2 /\ conv4_2f_front [] w2 = Some fr /\ In u fr /\ ~ optimal (in_box 4 4 (-10) 10 0 0) conv4_2f u.
Proof.
  exists [[1; 0; 0; 0]], [map (sqdist [0; -1; -1; -1]) corners4], (map (sqdist [0; -1; -1; -1]) corners4).
  split; [repeat (apply Forall_cons; [split; [reflexivity|]; split; [repeat (apply Forall_cons; [lra|]); apply Forall_nil|cbn; lra]|]); apply Forall_nil|].
  split; [|split; [left; reflexivity|]].
  - unfold conv4_2f_front. cbn [map all_some]. unfold normalised. replace (vsum [1; 0; 0; 0]) with 1 by (unfold vsum; cbn; ring).
    destruct (reqb 1 0) eqn:E; [apply reqb_true in E; lra|]. cbn [map app]. replace (row_mul 4 [1 / 1; 0 / 1; 0 / 1; 0 / 1] eye_minus_one) with [0; -1; -1; -1].
    + rewrite conv4_2f_pos by lra. reflexivity.
    + rewrite conv4_point_neg by field. repeat (apply (f_equal2 (@cons R)); [field|]). reflexivity.
  - intros (_ & H). apply (H [1; 0; 0; 0] (map (sqdist [1; 0; 0; 0]) corners4)).
    + apply in_box4. lra.
    + apply conv4_2f_pos. lra.
    + cbn [corners4 map sqdist]. split; [apply wdom4; lra|]. intros E. injection E as E _. lra.
Qed.
Print Assumptions C90_corner_refuted.
(** the number of reported vectors *)
Theorem C90_conv4_2f_sizes : forall N, let (n1, n2) := conv4_2f_sizes N in (n1 <= n2 + 1 /\ n2 <= n1 + 1 /\ (2 <= N -> n1 + n2 = N))%nat.
Proof.
  intros N. unfold conv4_2f_sizes. pose proof (Nat.div_mod_eq N 2) as E. pose proof (Nat.mod_upper_bound N 2 ltac:(lia)). lia.
Qed.
Print Assumptions C90_conv4_2f_sizes.
Theorem C90_conv4_2f_size_one_refuted : exists N n1 n2, (1 <= N)%nat /\ conv4_2f_sizes N = (n1, n2) /\ (n1 + n2)%nat <> N.
Proof. exists 1%nat, 1%nat, 1%nat. split; [lia|]. split; [reflexivity|]. lia. Qed.
Print Assumptions C90_conv4_2f_size_one_refuted.
Example C90_example : draws 4 [[1; 1; 0; 2]] /\ mixed [[1; 1; 0; 2]] /\ front2f [-7 + 3/4; 3/4; 3/4; 7 + 3/4] /\ conv4_2f_sizes 5 = (3, 2)%nat.
Proof.
  split; [|split; [|split; [|reflexivity]]].
  - apply Forall_cons; [split; [reflexivity|]; split; [repeat (apply Forall_cons; [lra|]); apply Forall_nil|cbn; lra]|apply Forall_nil].
  - apply Forall_cons; [|apply Forall_nil]. cbn [fold_right]. repeat (apply Forall_cons; [lra|]). apply Forall_nil.
  - right. apply moved_moved4. exists [1/4; 1/4; 1/4; 1/4]. split; [split; [split; [reflexivity|apply weights4; lra]|apply not_corner4; lra]|].
    unfold moved4. cbn [corners4 map sqdist combine shift7 fst snd]. repeat (apply (f_equal2 (@cons R)); [lra|]). reflexivity.
Qed.

(** C91: DENT *)
Theorem C91_dent_front : forall h, 0 <= h -> front (in_box 2 2 (- h) h 0 0) dent (dent_curve h).
Proof. exact dent_front_lemma. Qed.
Print Assumptions C91_dent_front.
Theorem C91_dent_reported : forall N h, 2 <= h ->
  exists fr, dent_front N = Some fr /\ length fr = N /\ forall u, In u fr -> optimal (in_box 2 2 (- h) h 0 0) dent u.
Proof. exact dent_reported. Qed.
Print Assumptions C91_dent_reported.
Example C91_example : dent_curve 2 [dent_entry 4; dent_entry (-4)] /\ dent_set 3 = [[-2; - -2]; [0; - 0]; [2; - 2]] /\ in_box 2 2 (- (2)) 2 0 0 [2; -2].
Proof.
  split; [exists 4; split; [lra|reflexivity]|]. split; [|apply in_box2; lra]. unfold dent_set, linspace. cbn [seq map Nat.eqb Nat.sub INR].
  repeat (apply (f_equal2 (@cons (list R))); [repeat (apply (f_equal2 (@cons R)); [lra|]); reflexivity|]). reflexivity.
Qed.

(** C92: DisConnected *)
Theorem C92_disconnected_feasible : forall x, disconnected_feasible x <->
  exists t s, x = [t; s] /\ 0 <= t <= 1 /\ -8 <= s <= 1 /\ (exists g1 g2, disconnected_ieq x = Some [g1; g2] /\ g1 <= 0 /\ g2 <= 0) /\ disconnected_eq x = Some 0.
Proof. exact disconnected_feasible_iff. Qed.
Print Assumptions C92_disconnected_feasible.
Theorem C92_disconnected_front : front disconnected_feasible disconnected arcs.
Proof. exact disconnected_front_lemma. Qed.
Print Assumptions C92_disconnected_front.
(** the feasible point between the arcs is not optimal, and the second arc has no first point *)
Theorem C92_disconnected_gap : disconnected_feasible [6/10; 1/4] /\ ~ arcs [6/10; 1/4] /\ ~ arcs [6/10; - 4 - (3/2) ^ 2].
Proof.
  split; [|split].
  - exists (6/10), (1/4). split; [reflexivity|]. split; [lra|]. split; [lra|]. left. split; [right; reflexivity|lra].
  - intros (t & [(H & E)|(H & E)]); injection E as E1 E2; lra.
  - intros (t & [(H & E)|(H & E)]); injection E as E1 E2; lra.
Qed.
Print Assumptions C92_disconnected_gap.
Example C92_example : arcs [2/10; 1/4] /\ arcs [8/10; -8].
Proof.
  split; [exists (2/10); left|exists (8/10); right]; (split; [lra|]); repeat (apply (f_equal2 (@cons R)); [lra|]); reflexivity.
Qed.

(** C93: ModifiedObjective *)
Theorem C93_modified_optimal : forall n (F : list R -> Prop) f u, (0 < n)%nat -> (forall x v, F x -> f x = Some v -> length v = n) -> attained F f u ->
  optimal F (modified n f) (modified_row n u) -> optimal F f u.
Proof. exact modified_optimal. Qed.
Print Assumptions C93_modified_optimal.
Theorem C93_modified_dominates : forall n u v, (0 < n)%nat -> length u = n -> length v = n -> dominates u v -> dominates (modified_row n u) (modified_row n v).
Proof. intros n u v Hn Lu Lv (H & Hne). split; [apply modified_wdom; auto|]. intros E. apply Hne. apply (modified_inj n); auto. Qed.
Print Assumptions C93_modified_dominates.
Theorem C93_modified_sum : forall n u, (0 < n)%nat -> length u = n -> fold_right Rplus 0 (modified_row n u) = fold_right Rplus 0 u.
Proof. exact modified_sum. Qed.
Print Assumptions C93_modified_sum.
(** an optimal vector may be dominated after the change *)
Theorem C93_modified_all_optimal_refuted : exists (F : list R -> Prop) f u, (forall x v, F x -> f x = Some v -> length v = 2%nat) /\
  optimal F f u /\ ~ optimal F (modified 2 f) (modified_row 2 u).
Proof.
  exists (fun x => x = [0; 100] \/ x = [1; 0]), (fun x => Some x), [0; 100]. split; [|split].
  - intros x v [-> | ->] E; injection E as <-; reflexivity.
  - split; [exists [0; 100]; auto|]. intros x v [-> | ->] E (H & Hne); injection E as <-; [congruence|]. apply wdom2 in H. lra.
  - intros (_ & H). apply (H [1; 0] (modified_row 2 [1; 0])); [right; reflexivity|reflexivity|].
    unfold modified_row, alpha, vsum. cbn [map fold_right INR]. split; [apply wdom2; lra|]. intros E. injection E as E _. lra.
Qed.
Print Assumptions C93_modified_all_optimal_refuted.
Example C93_example : dominates [1; 2] [1; 3] /\ dominates (modified_row 2 [1; 2]) (modified_row 2 [1; 3]).
Proof.
  assert (H : dominates [1; 2] [1; 3]) by (split; [apply wdom2; lra|]; intros E; injection E as E; lra). split; auto. apply C93_modified_dominates; auto.
Qed.
