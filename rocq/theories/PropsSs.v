(** Property theorems: sorting of splines, preimages and reference point of the subset selection. *)
From Coq Require Import List Arith Lia Reals ZArith Lra Psatz Sorted Permutation.
From Verif Require Import Num Exn HVModel HVSpec HVHom HVTop ExModel SsModel.
Import ListNotations.
Open Scope R_scope.

Lemma map_res_all {A B} (f : A -> res B) (g : A -> B) l : (forall a, In a l -> f a = Ok (g a)) -> map_res f l = Ok (map g l).
Proof. induction l as [|a l IH]; intros H; [reflexivity|]. cbn [map_res map]. rewrite (H a) by (left; reflexivity). cbn [bind]. rewrite IH by (intros; apply H; right; auto). reflexivity. Qed.
Lemma map_nth_seq {A} (l : list A) d : map (fun i => nth i l d) (seq 0 (length l)) = l.
Proof.
  induction l as [|a l IH]; [reflexivity|]. cbn [length seq map nth]. f_equal. rewrite <- seq_shift, map_map. exact IH.
Qed.

(** * C187 *)
(** the splines are kept, in the order of their first objective at the beginning *)
Theorem C187_sorted : forall argsort ps, argsort_ok argsort -> exists qs, sort_splines argsort ps = Ok qs /\ Permutation qs ps /\
  StronglySorted (fun p q => nth 0 (p_obj p 0) 0 <= nth 0 (p_obj q 0) 0) qs.
Proof.
  intros argsort ps Ha. destruct (Ha (map first_at_0 ps)) as [HP HS]. rewrite map_length in HP.
  set (d := mkPiece (fun _ => []) (fun _ => []) (fun _ => [])). exists (map (fun i => nth i ps d) (argsort (map first_at_0 ps))).
  assert (HI : forall i, In i (argsort (map first_at_0 ps)) -> (i < length ps)%nat) by (intros i Hi; apply (Permutation_in _ HP), in_seq in Hi; lia).
  split; [|split].
  - apply map_res_all. intros i Hi. rewrite (nth_error_nth' ps d) by (apply HI; auto). reflexivity.
  - rewrite <- (map_nth_seq ps d) at 2. apply Permutation_map, HP.
  - revert HI HS. generalize (argsort (map first_at_0 ps)). intros l HI HS. induction HS as [|i l HS IH HF]; cbn [map]; constructor.
    + apply IH. intros j Hj. apply HI. right. auto.
    + rewrite Forall_forall in *. intros q Hq. apply in_map_iff in Hq. destruct Hq as (j & <- & Hj). specialize (HF j Hj). cbn beta in HF.
      assert (N : forall i, (i < length ps)%nat -> nth i (map first_at_0 ps) 0 = nth 0 (p_obj (nth i ps d) 0) 0).
      { intros x Hx. rewrite (nth_indep _ 0 (first_at_0 d)) by (rewrite map_length; auto). rewrite map_nth. reflexivity. }
      rewrite !N in HF; [exact HF|apply HI; right; auto|apply HI; left; reflexivity].
Qed.
Print Assumptions C187_sorted.

(** a minimiser that is right finds a parameter of every point of the curve *)
Lemma dist2_pos u v : 0 <= dist2 u v.
Proof. revert v. induction u as [|a u IH]; intros [|b v]; simpl; try lra. specialize (IH v). pose proof (Rle_0_sqr (a - b)) as H. unfold Rsqr in H. lra. Qed.
Lemma dist2_same u : dist2 u u = 0.
Proof. induction u as [|a u IH]; simpl; [reflexivity|]. rewrite IH. ring. Qed.
Lemma dist2_zero u v : length u = length v -> dist2 u v = 0 -> u = v.
Proof.
  revert v. induction u as [|a u IH]; intros [|b v] L H; simpl in *; try discriminate; auto. pose proof (dist2_pos u v). pose proof (Rle_0_sqr (a - b)) as Q. unfold Rsqr in Q.
  assert (Z : (a - b) * (a - b) = 0) by lra. assert (a - b = 0) by (destruct (Rmult_integral _ _ Z); auto). f_equal; [lra|]. apply IH; [lia|]. lra.
Qed.
Definition sqdist (u v : list R) : R := fold_right Rplus 0 (map (fun p => (fst p - snd p) ^ 2) (combine u v)).
Lemma dist2_sq u : forall v, dist2 u v = sqdist u v.
Proof. unfold sqdist. induction u as [|a u IH]; intros [|b v]; cbn [dist2 combine map fold_right fst snd]; try reflexivity. rewrite IH. ring. Qed.
(** [f] is the squared distance of the curve to [y] *)
Definition distance_to (objective : R -> res (list R)) (y : list R) (f : R -> R) : Prop := forall s u, objective s = Ok u -> f s = sqdist u y.
Lemma preimage_fun objective y : distance_to objective y (fun t => match objective t with Ok v => dist2 v y | Exn _ => 0 end).
Proof. intros s u E. rewrite E. apply dist2_sq. Qed.
Theorem C187_preimage : forall minimise objective y t m,
  (forall s, 0 <= s <= 1 -> exists v, objective s = Ok v /\ length v = m) -> 0 <= t <= 1 -> objective t = Ok y ->
  (forall f, distance_to objective y f -> 0 <= minimise f <= 1 /\ forall s, 0 <= s <= 1 -> f (minimise f) <= f s) ->
  objective (get_preimage minimise y objective) = Ok y.
Proof.
  intros minimise objective y t m Ho Ht Ey Hm. unfold get_preimage. destruct (Hm _ (preimage_fun objective y)) as [H1 H2]. set (x := minimise _) in *.
  destruct (Ho _ H1) as (v & Ev & Lv). destruct (Ho _ Ht) as (y' & Ey' & Ly).
  specialize (H2 t Ht). cbn beta in H2. rewrite Ev, Ey, dist2_same in H2. pose proof (dist2_pos v y). rewrite Ev. f_equal. apply dist2_zero; [congruence|lra].
Qed.
Print Assumptions C187_preimage.
Example C187_preimage_example : let o := fun t => Ok [t; 1 - t] in
  o (1 / 2) = Ok [1 / 2; 1 - 1 / 2] /\ forall f, distance_to o [1 / 2; 1 - 1 / 2] f -> 0 <= (fun _ : R -> R => 1 / 2) f <= 1 /\ forall s, 0 <= s <= 1 -> f ((fun _ : R -> R => 1 / 2) f) <= f s.
Proof.
  cbv zeta. split; [reflexivity|]. intros f Hf. split; [lra|]. intros s _. rewrite (Hf (1 / 2) _ eq_refl), (Hf s _ eq_refl), <- !dist2_sq, dist2_same. apply dist2_pos.
Qed.
(** a minimiser that is only right nearby need not: the bounded search may stop at a local minimum *)
Theorem C187_local_refuted : exists minimise objective y t, 0 <= t <= 1 /\ objective t = Ok y /\ (forall s, exists u, objective s = Ok u /\ length u = 2%nat) /\
  (forall f, distance_to objective y f -> 0 <= minimise f <= 1 /\ exists e, 0 < e /\ forall s, 0 <= s <= 1 -> Rabs (s - minimise f) <= e -> f (minimise f) <= f s) /\
  objective (get_preimage minimise y objective) <> Ok y.
Proof.
  exists (fun _ => 0), (fun t => Ok [t; t * (3 - 4 * t)]), [1; 1 * (3 - 4 * 1)], 1. split; [lra|]. split; [reflexivity|]. split; [intros s; eexists; split; reflexivity|]. split.
  - intros f Hf. split; [lra|]. exists (1 / 4). split; [lra|]. intros s Hs He. rewrite Rminus_0_r, Rabs_pos_eq in He by lra.
    rewrite (Hf 0 _ eq_refl), (Hf s _ eq_refl), <- !dist2_sq. cbn [dist2].
    assert (0 <= s * (3 - 4 * s)) by nra. assert (2 * s <= s * (3 - 4 * s)) by nra. nra.
  - intros E. apply (f_equal (fun r => match r with Ok l => nth 0 l 0 | Exn _ => 0 end)) in E. unfold get_preimage in E. simpl in E. lra.
Qed.
Print Assumptions C187_local_refuted.

(** the reference point *)
Lemma fold_max k rs : forall s, s <= fold_left (fun s row => Rmax s (nth k row 0)) rs s /\ (forall r, In r rs -> nth k r 0 <= fold_left (fun s row => Rmax s (nth k row 0)) rs s) /\
  (fold_left (fun s row => Rmax s (nth k row 0)) rs s = s \/ exists r, In r rs /\ fold_left (fun s row => Rmax s (nth k row 0)) rs s = nth k r 0).
Proof.
  induction rs as [|r rs IH]; intros s; cbn [fold_left]; [split; [lra|split; [intros ? []|auto]]|].
  destruct (IH (Rmax s (nth k r 0))) as (H1 & H2 & H3). pose proof (Rmax_l s (nth k r 0)). pose proof (Rmax_r s (nth k r 0)).
  split; [lra|]. split; [intros q [<-|Hq]; [lra|auto]|]. destruct H3 as [E|(q & Hq & E)]; [|right; exists q; split; [right; auto|auto]].
  destruct (Rmax_case_strong s (nth k r 0) (fun z => z = s \/ z = nth k r 0)) as [C|C]; auto; rewrite E, C; [left; reflexivity|right; exists r; split; [left; reflexivity|reflexivity]].
Qed.
Lemma data_ref_entry m data c k : data_ref m data = Ok c -> (k < m)%nat -> length c = m /\ exists r, In r data /\ nth k c 0 = 1.5 * nth k r 0 /\ forall q, In q data -> nth k q 0 <= nth k r 0.
Proof.
  intros E Hk. destruct data as [|r rs]; [discriminate|]. unfold data_ref in E. cbn [colmax bind] in E. injection E as <-. rewrite !map_length, seq_length. split; [reflexivity|].
  set (M := fun k => fold_left (fun s row => Rmax s (nth k row 0)) rs (nth k r 0)).
  assert (EN : nth k (map (fun a => 1.5 * a) (map M (seq 0 m))) 0 = 1.5 * M k).
  { rewrite map_map. rewrite (nth_indep _ 0 (1.5 * M 0%nat)) by (rewrite map_length, seq_length; auto). rewrite (map_nth (fun x => 1.5 * M x)), seq_nth by auto. reflexivity. }
  destruct (fold_max k rs (nth k r 0)) as (H1 & H2 & H3). fold (M k) in H1, H2, H3.
  destruct H3 as [E|(q & Hq & E)].
  - exists r. split; [left; reflexivity|]. split; [rewrite <- E; exact EN|]. intros q [<-|Hq]; [lra|]. specialize (H2 q Hq). lra.
  - exists q. split; [right; auto|]. split; [rewrite <- E; exact EN|]. intros q' [<-|Hq']; [lra|]. specialize (H2 q' Hq'). lra.
Qed.
(** it is above all data if every objective is positive somewhere *)
Theorem C187_reference : forall m data c, data_ref m data = Ok c -> (forall k, (k < m)%nat -> exists r, In r data /\ 0 < nth k r 0) ->
  length c = m /\ forall q k, In q data -> (k < m)%nat -> nth k q 0 < nth k c 0.
Proof.
  intros m data c E Hp. split.
  - destruct data; [discriminate|]. unfold data_ref in E. cbn [colmax bind] in E. injection E as <-. rewrite !map_length, seq_length. reflexivity.
  - intros q k Hq Hk. destruct (data_ref_entry m data c k E Hk) as (_ & r & Hr & En & Hm). destruct (Hp k Hk) as (s & Hs & Ps). pose proof (Hm s Hs). pose proof (Hm q Hq). lra.
Qed.
Print Assumptions C187_reference.
(** and not otherwise: with an objective that is negative on all data, the worst data in it are beyond the reference point *)
Theorem C187_negative_refuted : forall m data c k, data_ref m data = Ok c -> (k < m)%nat -> (forall r, In r data -> nth k r 0 < 0) -> forall q, In q data -> exists r, In r data /\ nth k c 0 < nth k r 0 /\ nth k q 0 <= nth k r 0.
Proof.
  intros m data c k E Hk Hn q Hq. destruct (data_ref_entry m data c k E Hk) as (_ & r & Hr & En & Hm). exists r. specialize (Hn r Hr). split; [auto|]. split; [lra|]. apply Hm. auto.
Qed.
Print Assumptions C187_negative_refuted.
Example C187_example : data_ref 2 [[1; 4]; [3; 2]] = Ok [1.5 * Rmax 1 3; 1.5 * Rmax 4 2] /\ (exists r, In r [[1; 4]; [3; 2]] /\ 0 < nth 0 r 0) /\
  (forall r, In r [[-1; 4]; [-3; 5]] -> nth 0 r 0 < 0) /\ argsort_ok (stable_argsort (T:=R)).
Proof.
  split; [reflexivity|]. split; [exists [1; 4]; split; [left; reflexivity|simpl; lra]|]. split; [intros r [<-|[<-|[]]]; simpl; lra|]. apply stable_argsort_ok.
Qed.
