(** Further theorems that fix details of the models which the other theorems leave open. *)
From Coq Require Import List Arith Bool Reals Lia Lra.
From Verif Require Import Exn NewtonModel NewtonProof IndSpec IndModel IndProof WfgModel Ex2Model LaraModel.
From Verif Require BenchModel ConvModel Ex2Spec.
Import ListNotations.
Open Scope R_scope.

(** * C39: a negative exponent *)
Lemma fold_inf l : Forall (fun a => a = PInf \/ exists r, a = Fin r) l -> fold_left fadd l PInf = PInf.
Proof. induction 1 as [|a l [-> |(r & ->)] _ IH]; cbn; auto. Qed.
Lemma npow_kind q d : npow d q = PInf \/ exists r, npow d q = Fin r.
Proof. unfold npow. destruct (reqb d 0); [destruct (reqb q 0); [eauto|destruct (rltb 0 q); eauto]|eauto]. Qed.
Lemma fold_some_inf p ds : p < 0 -> In 0 ds -> forall a, fold_left fadd (map (fun d => npow d p) ds) (Fin a) = PInf.
Proof.
  intros Hp. induction ds as [|d ds IH]; intros Hin a; [destruct Hin|]. cbn [map fold_left]. destruct (Req_dec d 0) as [-> |Hd].
  - replace (npow 0 p) with PInf. 2: { unfold npow. rewrite (proj2 (reqb_true 0 0)) by auto. rewrite (proj2 (reqb_false p 0)) by lra. rewrite (proj2 (rltb_false 0 p)) by lra. auto. }
    cbn [fadd]. apply fold_inf. apply Forall_forall. intros x Hx. apply in_map_iff in Hx as (d & <- & _). apply npow_kind.
  - destruct Hin as [E|Hin]; [congruence|]. unfold npow at 2. rewrite (proj2 (reqb_false d 0)) by auto. cbn [fadd]. auto.
Qed.
Lemma root_mean_zero p ds : p < 0 -> In 0 ds -> root_mean p ds = Ok (Fin 0).
Proof.
  intros Hp Hin. unfold root_mean. rewrite (proj2 (reqb_false p 0)) by lra. unfold fmean. rewrite fold_some_inf by auto. cbn [fdiv].
  rewrite (proj2 (rltb_false _ 0)) by apply pos_INR. cbn [fpow]. assert (1 / p < 0) by (unfold Rdiv; rewrite Rmult_1_l; apply Rinv_lt_0_compat; auto).
  rewrite (proj2 (reqb_false _ 0)) by lra. rewrite (proj2 (rltb_false 0 _)) by lra. auto.
Qed.
Lemma edist_self r : edist r r = 0.
Proof. apply Rle_antisym; [|apply edist_nonneg]. destruct (Rle_or_lt (edist r r) 0) as [|H]; auto. exfalso. revert H. unfold edist. replace (sqd r r) with 0. rewrite sqrt_0. lra.
  induction r as [|a r IH]; cbn; auto. rewrite <- IH. ring. Qed.
(** with a negative exponent, one point on the reference set makes the generational distance 0 *)
Theorem C39_negative_exponent : forall o Y m y, i_p o < 0 -> In y Y -> In y (i_ref o) -> rows m Y -> rows m (i_ref o) -> gd_compute o None (Some Y) = Ok (Fin 0).
Proof.
  intros o Y m y Hp Hy Hr H1 H2. unfold gd_compute. simpl get_Y. cbn [bind]. rewrite (nearest_rows_ok Y (i_ref o) m); auto; try (intros E; rewrite E in *; contradiction).
  cbn [bind fst snd]. rewrite pick_spec. apply root_mean_zero; auto. apply in_map_iff. exists y. split; auto. apply Rle_antisym.
  - rewrite <- (edist_self y). apply argminR_min. apply in_map. auto.
  - apply dmin_nonneg.
Qed.
Print Assumptions C39_negative_exponent.
Example C39_negative_exponent_meets : exists o Y y, i_p o < 0 /\ In y Y /\ In y (i_ref o) /\ rows 2 Y /\ rows 2 (i_ref o) /\ length Y = 2%nat.
Proof.
  exists (mk_ind [[0; 1]; [1; 0]] (fun x => x) (fun _ _ _ => 0) (fun _ _ _ _ => 0) (-1)), [[2; 3]; [1; 0]], [1; 0]. split; [simpl; lra|]. split; [simpl; auto|]. split; [simpl; auto|].
  split; [intros r [<-|[<-|[]]]; auto|]. split; [intros r [<-|[<-|[]]]; auto|auto].
Qed.

(** * C92: the box of DisConnected *)
(** the box reaches below the upper arc and cuts the lower one: on the curve of the equality
    constraint exactly the points with first coordinate at most 0.8 are in the box *)
Theorem C92_disconnected_box : forall t s, ConvModel.disconnected_eq [t; s] = Some 0 -> 0 <= t <= 1 ->
  (Forall2 Rle ConvModel.disconnected_xl [t; s] /\ Forall2 Rle [t; s] ConvModel.disconnected_xu <-> t <= 8 / 10).
Proof.
  intros t s E Ht. unfold ConvModel.disconnected_eq in E. injection E as E. unfold ConvModel.disconnected_xl, ConvModel.disconnected_xu. unfold BenchModel.sq in *.
  assert (B : t <= 6/10 /\ s = (5 * t / 2) * (5 * t / 2) - 5 * t + 1 \/ 6/10 < t /\ s = -4 - (5 * t / 2) * (5 * t / 2)).
  { destruct (rleb t 0.6) eqn:L. apply rleb_true in L. left. lra. apply rleb_false in L. right. lra. }
  split.
  - intros (A & C). inversion A as [|? ? ? ? _ A1]; subst. inversion A1 as [|? ? ? ? A2 _]; subst. destruct B as [(B1 & B2)|(B1 & B2)]; [lra|].
    destruct (Rle_or_lt t (8/10)) as [|H]; auto. assert (4 < (5 * t / 2) * (5 * t / 2)) by (replace 4 with (2 * 2) by lra; apply Rmult_le_0_lt_compat; lra). lra.
  - intros H. assert (U : -8 <= s <= 1).
    { destruct B as [(B1 & B2)|(B1 & B2)].
      - assert (0 <= (5 * t / 2 - 1) * (5 * t / 2 - 1)) by (apply Rle_0_sqr). assert (0 <= t * (8/10 - t)) by (apply Rmult_le_pos; lra). lra.
      - assert ((5 * t / 2) * (5 * t / 2) <= 2 * 2) by (apply Rmult_le_compat; lra). assert (0 <= (5 * t / 2) * (5 * t / 2)) by (apply Rle_0_sqr). lra. }
    split; repeat (apply Forall2_cons; [lra|]); apply Forall2_nil.
Qed.
Print Assumptions C92_disconnected_box.
Theorem C92_disconnected_box_bounds : ConvModel.disconnected_xl = [0; -8] /\ ConvModel.disconnected_xu = [1; 1].
Proof. split; reflexivity. Qed.
Print Assumptions C92_disconnected_box_bounds.
Example C92_disconnected_box_meets : ConvModel.disconnected_eq [0; 1] = Some 0 /\ ConvModel.disconnected_eq [1; - 41 / 4] = Some 0.
Proof.
  unfold ConvModel.disconnected_eq, BenchModel.sq. rewrite (proj2 (rleb_true 0 0.6)) by lra. rewrite (proj2 (rleb_false 1 0.6)) by lra. split; f_equal; lra.
Qed.

(** * C94: the smallest of the step bounds, infinities included *)
(** order of the values that are not NaN *)
Definition below_or_equal (a b : fl) : Prop :=
  match a, b with NaN, _ | _, NaN => False | NInf, _ | _, PInf => True | Fin x, Fin y => x <= y | _, _ => False end.
Lemma flt_spec a b : a <> NaN -> b <> NaN -> if flt a b then below_or_equal a b else below_or_equal b a.
Proof. intros Ha Hb. destruct a, b; simpl; auto; try congruence. destruct (rltb r r0) eqn:E; [apply rltb_true in E|apply rltb_false in E]; lra. Qed.
Lemma boe_trans a b c : below_or_equal a b -> below_or_equal b c -> below_or_equal a c.
Proof. destruct a, b, c; simpl; auto; try lra; tauto. Qed.
Lemma boe_refl a : a <> NaN -> below_or_equal a a.
Proof. destruct a; simpl; auto; try lra; congruence. Qed.
Theorem C94_smallest : forall l, l <> [] -> ~ In NaN l -> exists m, pymin l = Ok m /\ In m l /\ forall s, In s l -> below_or_equal m s.
Proof.
  intros [|a l] Hn H; [congruence|]. clear Hn. unfold pymin. eexists. split; [reflexivity|]. revert a H. induction l as [|b l IH]; intros a H.
  - cbn. split; auto. intros s [<-|[]]. apply boe_refl. intros ->. apply H. simpl. auto.
  - cbn [fold_left]. assert (Ha : a <> NaN) by (intros ->; apply H; simpl; auto). assert (Hb : b <> NaN) by (intros ->; apply H; simpl; auto).
    pose proof (flt_spec b a Hb Ha) as F. destruct (flt b a).
    + destruct (IH b) as (I1 & I2); [intros Hx; apply H; right; auto|]. split; [right; auto|]. intros s [<-|Hs]; [|auto]. apply boe_trans with b; auto. apply I2. left. auto.
    + destruct (IH a) as (I1 & I2). { intros [->|Hx]; apply H; simpl; auto. } split; [destruct I1 as [<-|I1]; simpl; auto|].
      intros s [<-|[<-|Hs]]; auto. apply I2; left; auto. apply boe_trans with a; auto. apply I2. left. auto. apply I2. right. auto.
Qed.
Print Assumptions C94_smallest.
Example C94_smallest_meets : let l := [PInf; Fin (1 / 2); Fin 1] in l <> [] /\ ~ In NaN l.
Proof. split. discriminate. intros [H|[H|[H|[]]]]; discriminate. Qed.

(** * C152: the feasible sets written out *)
Theorem C152_feasible_sets : forall fuel x y z,
  (Ex2Spec.feasible (front_convex fuel) [x; y; z] <-> (-1 <= x <= 0 /\ -1 <= y <= 0 /\ -1 <= z <= 0) /\ x ^ 2 + y ^ 2 + z ^ 2 = 1) /\
  (Ex2Spec.feasible (front_concave fuel) [x; y; z] <-> (0 <= x <= 1 /\ 0 <= y <= 1 /\ 0 <= z <= 1) /\ x ^ 2 + y ^ 2 + z ^ 2 = 1) /\
  (Ex2Spec.feasible (front_linear fuel) [x; y; z] <-> (0 <= x <= 1 /\ 0 <= y <= 1 /\ 0 <= z <= 1) /\ x + y + z = / 2).
Proof.
  intros fuel x y z. unfold Ex2Spec.feasible. cbn [fp_eq fp_ieq fp_lo fp_hi front_convex front_concave front_linear sumsq sumv firstn fold_right length].
  assert (F : forall a b, Forall (fun c => a <= c <= b) [x; y; z] <-> a <= x <= b /\ a <= y <= b /\ a <= z <= b).
  { intros a b. rewrite !Forall_cons_iff. split; [tauto|]. intros (A & B & C). auto. }
  rewrite !F. pose proof (Rle_0_sqr z) as Q. unfold Rsqr in Q. split; [|split]; split; try (intros (_ & A & B & C); split; [tauto|lra]); intros (A & B); (split; [auto|]; split; [tauto|]; split; lra).
Qed.
Print Assumptions C152_feasible_sets.
(** the values of the inequality constraint, also away from the feasible set *)
Theorem C152_constraint_values : forall fuel x y z,
  fp_ieq (front_convex fuel) [x; y; z] = x ^ 2 + y ^ 2 - 1 /\ fp_ieq (front_concave fuel) [x; y; z] = x ^ 2 + y ^ 2 - 1 /\ fp_ieq (front_linear fuel) [x; y; z] = x + y - / 2.
Proof. intros. cbn. repeat split; lra. Qed.
Print Assumptions C152_constraint_values.

(** * C157: the complete table of the set-ups *)
(** the algorithm is wrapped by the constraint handling for the constrained problems, MOEAD never *)
Theorem C157_wrapped : forall n a c s, get_algorithm n a c = Ok s \/ get_algorithm_bench n a c = Ok s -> s_wrapped s = match a with MOEAD => false | _ => c end.
Proof.
  intros n a c s [H|H].
  - destruct a; unfold get_algorithm in H; try (destruct (pop_size n); cbn [bind] in H; [injection H as <-; reflexivity|discriminate]);
    try discriminate; destruct n as [|[|[|[|[|n]]]]]; try discriminate H; try (injection H as <-; reflexivity).
  - unfold get_algorithm_bench in H. destruct (pop_size n) as [p|]; cbn [bind] in H; [|discriminate].
    destruct a; try discriminate H; try (injection H as <-; reflexivity); destruct n as [|[|[|[|[|n]]]]]; try discriminate H; try (injection H as <-; reflexivity).
    destruct (p <=? n_dirs 4 14)%nat; [injection H as <-; reflexivity|discriminate].
Qed.
Print Assumptions C157_wrapped.
Example C157_wrapped_meets : exists s, get_algorithm 2 NSGA2 true = Ok s /\ s_wrapped s = true.
Proof. eexists. split; reflexivity. Qed.

(** * C165: bounds, scales and the correction of rounding *)
Theorem C165_default_bounds : forall n, length (default_xu n) = n /\ length (scales n) = n /\
  forall i, (i < n)%nat -> nth i (default_xu n) 0 = 2 * (INR i + 1) /\ nth i (scales n) 0 = 2 * (INR i + 1).
Proof.
  intros n. unfold default_xu, scales. rewrite !map_length, !seq_length. split; auto. split; auto. intros i Hi.
  assert (E : nth i (map (fun i : nat => 2 * INR i) (seq 1 n)) 0 = 2 * (INR i + 1)).
  { rewrite (nth_indep _ 0 (2 * INR 0)) by (rewrite map_length, seq_length; auto). rewrite (map_nth (fun i : nat => 2 * INR i)). rewrite seq_nth by auto. rewrite plus_INR. simpl (INR 1). ring. }
  split; exact E.
Qed.
Print Assumptions C165_default_bounds.
Theorem C165_correction : forall x, let e := / 10 ^ 10 in
  (0 <= x <= 1 -> correct01 x = x) /\ (- e <= x < 0 -> correct01 x = 0) /\ (1 < x <= 1 + e -> correct01 x = 1) /\ (x < - e \/ 1 + e < x -> correct01 x = x).
Proof.
  intros x e. assert (He : 0 < e < 1) by (subst e; lra). unfold correct01. fold e.
  destruct (rltb x 0) eqn:A; [apply rltb_true in A|apply rltb_false in A]; (destruct (rleb (- e) x) eqn:B; [apply rleb_true in B|apply rleb_false in B]); cbn [andb];
  match goal with |- context [rltb 1 ?v] => destruct (rltb 1 v) eqn:C; [apply rltb_true in C|apply rltb_false in C];
    (destruct (rleb v (1 + e)) eqn:D; [apply rleb_true in D|apply rleb_false in D]) end; cbn [andb]; lra.
Qed.
Print Assumptions C165_correction.
