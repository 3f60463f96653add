From Coq Require Import List Arith Bool Lia Reals Lra Psatz.
From Verif Require Import ListAux ProbModel NewtonModel BenchModel BenchSpec.
Import ListNotations.
Open Scope R_scope.

(** ** fronts *)
Lemma wdom_refl a : wdom a a.
Proof. unfold wdom. induction a; constructor; auto. apply Rle_refl. Qed.
Lemma wdom_trans a b c : wdom a b -> wdom b c -> wdom a c.
Proof.
  unfold wdom. intros H; revert c. induction H; intros c' H'; inversion H'; subst; constructor; eauto using Rle_trans.
Qed.
Lemma wdom_antisym a b : wdom a b -> wdom b a -> a = b.
Proof.
  unfold wdom. intros H. induction H; intros H'; inversion H'; subst; auto. f_equal; auto. apply Rle_antisym; auto.
Qed.
Lemma front_intro (F : list R -> Prop) f (C : list R -> Prop) :
  (forall x, F x -> exists v, f x = Some v /\ exists u, C u /\ wdom u v) ->
  (forall u, C u -> attained F f u) -> (forall u w, C u -> C w -> wdom w u -> w = u) -> front F f C.
Proof.
  intros Hc Ha Hx. split; auto. intros u; split.
  - intros ((x & Fx & fx) & Hu). destruct (Hc x Fx) as (v & fv & w & Cw & Hw). rewrite fx in fv. injection fv as <-.
    destruct (Ha w Cw) as (x' & Fx' & fx'). destruct (list_eq_dec Req_EM_T w u) as [->|Hne]; auto.
    exfalso. apply (Hu x' w Fx' fx'). split; auto.
  - intros Cu. split; auto. intros x v Fx fv (Hv & Hne). destruct (Hc x Fx) as (v' & fv' & w & Cw & Hw).
    rewrite fv in fv'. injection fv' as <-. assert (w = u) by (apply Hx; auto; eapply wdom_trans; eauto). subst.
    apply Hne. apply wdom_antisym; auto.
Qed.
Lemma wdom2 a b c d : wdom [a; b] [c; d] <-> a <= c /\ b <= d.
Proof. unfold wdom. split; [intros H; inversion H as [|? ? ? ? H1 H2]; inversion H2; auto|]. intros (H1 & H2). apply Forall2_cons; auto. Qed.
Lemma wdom3 a b c a' b' c' : wdom [a; b; c] [a'; b'; c'] <-> a <= a' /\ b <= b' /\ c <= c'.
Proof.
  unfold wdom. split; [intros H; inversion H as [|? ? ? ? Ha Hb]; subst; inversion Hb as [|? ? ? ? Hc Hd]; subst; inversion Hd; subst; auto|].
  intros (H1 & H2 & H3). apply Forall2_cons; auto.
Qed.
(** a decreasing curve is an antichain *)
Lemma graph_antichain (D : R -> Prop) phi :
  (forall s t, D s -> D t -> s < t -> phi t < phi s) -> forall u w, graph D phi u -> graph D phi w -> wdom w u -> w = u.
Proof.
  intros H u w (s & Ds & ->) (t & Dt & ->) Hw. apply wdom2 in Hw. destruct Hw as (H1 & H2).
  destruct H1 as [H1|H1]; [|subst; auto]. specialize (H _ _ Dt Ds H1). lra.
Qed.

(** ** decisions *)
Lemma rltb_true a b : rltb a b = true <-> a < b.
Proof. unfold rltb. destruct (Rlt_dec a b); split; intros; try reflexivity; try discriminate; try assumption; contradiction. Qed.
Lemma rltb_false a b : rltb a b = false <-> b <= a.
Proof. unfold rltb. destruct (Rlt_dec a b); split; intros; try reflexivity; try discriminate; lra. Qed.
Lemma rleb_true a b : rleb a b = true <-> a <= b.
Proof. unfold rleb. destruct (Rle_dec a b); split; intros; try reflexivity; try discriminate; try assumption; contradiction. Qed.
Lemma reqb_true a b : reqb a b = true <-> a = b.
Proof. unfold reqb. destruct (Req_EM_T a b); split; intros; try reflexivity; try discriminate; try assumption; contradiction. Qed.
Lemma reqb_false a b : reqb a b = false <-> a <> b.
Proof. unfold reqb. destruct (Req_EM_T a b); split; intros; try reflexivity; try discriminate; try assumption; contradiction. Qed.

(** ** arrays *)
Lemma vsum_nonneg l : Forall (fun a => 0 <= a) l -> 0 <= vsum l.
Proof. unfold vsum. induction 1; cbn; lra. Qed.
Lemma vsum_zero l : Forall (fun a => a = 0) l -> vsum l = 0.
Proof. unfold vsum. induction 1; cbn; lra. Qed.
Lemma mean_nonneg l : l <> [] -> Forall (fun a => 0 <= a) l -> exists m, mean l = Some m /\ 0 <= m.
Proof.
  intros Hn H. destruct l as [|a l]; [congruence|]. eexists. split; [reflexivity|].
  apply Rmult_le_pos; [apply vsum_nonneg; auto|]. apply Rlt_le, Rinv_0_lt_compat, lt_0_INR. cbn; lia.
Qed.
Lemma mean_zero l : l <> [] -> Forall (fun a => a = 0) l -> mean l = Some 0.
Proof. intros Hn H. destruct l as [|a l]; [congruence|]. unfold mean. rewrite vsum_zero; auto. f_equal. unfold Rdiv. ring. Qed.
Lemma mean_le l b : l <> [] -> Forall (fun a => a <= b) l -> exists m, mean l = Some m /\ m <= b.
Proof.
  intros Hn H. destruct l as [|a l]; [congruence|]. eexists. split; [reflexivity|].
  assert (Hs : forall l, Forall (fun a => a <= b) l -> vsum l <= INR (length l) * b).
  { induction 1 as [|? ? ? ? IH]; [cbn; lra|]. cbn [vsum fold_right length] in *. rewrite S_INR. fold (vsum l0) in *. lra. }
  specialize (Hs _ H). assert (0 < INR (length (a :: l))) by (apply lt_0_INR; cbn; lia).
  apply Rmult_le_reg_r with (INR (length (a :: l))); auto. unfold Rdiv. rewrite Rmult_assoc, Rinv_l by lra. lra.
Qed.
Lemma mean2_nonneg l : l <> [] -> Forall (fun a => 0 <= a) l -> exists m, mean2 l = Some m /\ 0 <= m.
Proof. intros Hn H. destruct (mean_nonneg l Hn H) as (m & E & Hm). unfold mean2. rewrite E. eexists; split; [reflexivity|lra]. Qed.
Lemma mean2_zero l : l <> [] -> Forall (fun a => a = 0) l -> mean2 l = Some 0.
Proof. intros Hn H. unfold mean2. rewrite mean_zero; auto. f_equal. ring. Qed.
Lemma take_some {A} (d : A) l idx : (forall i, In i idx -> (i < length l)%nat) -> take l idx = Some (map (fun i => nth i l d) idx).
Proof.
  induction idx as [|i idx IH]; intros H; [reflexivity|]. cbn [take map].
  rewrite (nth_error_nth' l d) by (apply H; left; auto). rewrite IH by (intros; apply H; right; auto). reflexivity.
Qed.
Lemma take_map {A B} (g : A -> B) l idx : take (map g l) idx = match take l idx with Some r => Some (map g r) | None => None end.
Proof.
  induction idx as [|i idx IH]; [reflexivity|]. cbn [take]. rewrite nth_error_map. destruct (nth_error l i); [|reflexivity]. cbn [option_map].
  rewrite IH. destruct (take l idx); reflexivity.
Qed.
Lemma arange_in a b s j : (0 < s)%nat -> In j (arange a b s) <-> exists k, j = (a + k * s)%nat /\ (j < b)%nat.
Proof.
  intros Hs. unfold arange. rewrite in_map_iff. split.
  - intros (k & <- & H). apply in_seq in H. exists k; split; auto.
    assert (k * s < b - a + (s - 1) - (s - 1))%nat; [|lia].
    pose proof (Nat.mul_div_le (b - a + (s - 1)) s ltac:(lia)). assert ((k + 1) * s <= s * ((b - a + (s - 1)) / s))%nat by nia. nia.
  - intros (k & -> & H). exists k; split; auto. apply in_seq. split; [lia|]. cbn.
    apply Nat.lt_le_trans with (k + 1)%nat; [lia|]. apply Nat.div_le_lower_bound; [lia|]. nia.
Qed.
Lemma enum_length {A} (l : list A) : length (enum l) = length l.
Proof. unfold enum. rewrite combine_length, seq_length. lia. Qed.
Lemma enum_nth {A} (l : list A) i d : (i < length l)%nat -> nth i (enum l) (0%nat, d) = (i, nth i l d).
Proof. intros H. unfold enum. rewrite combine_nth by (rewrite seq_length; auto). rewrite seq_nth by auto. reflexivity. Qed.
Lemma minus_at_length tgt x : length (minus_at tgt x) = length x.
Proof. unfold minus_at. rewrite map_length, enum_length. reflexivity. Qed.
Lemma minus_at_nth tgt x i : (i < length x)%nat -> nth i (minus_at tgt x) 0 = nth i x 0 - tgt i.
Proof.
  intros H. unfold minus_at. rewrite (nth_map_default _ _ _ (0%nat, 0)) by (rewrite enum_length; auto). rewrite enum_nth by auto. reflexivity.
Qed.
Lemma take_minus tgt x idx : (forall i, In i idx -> (i < length x)%nat) -> take (minus_at tgt x) idx = Some (map (fun i => nth i x 0 - tgt i) idx).
Proof.
  intros H. rewrite (take_some 0) by (rewrite minus_at_length; auto). f_equal. apply map_ext_in. intros i Hi. apply minus_at_nth; auto.
Qed.
Lemma linspace_unit N t : In t (linspace01 N) -> 0 <= t <= 1.
Proof.
  unfold linspace01. rewrite in_map_iff. intros (i & <- & H). apply in_seq in H. destruct (Nat.eqb_spec N 1); [lra|].
  assert (0 < INR (N - 1)) by (apply lt_0_INR; lia). assert (INR i <= INR (N - 1)) by (apply le_INR; lia). assert (0 <= INR i) by apply pos_INR.
  split; [apply Rmult_le_pos; auto; apply Rlt_le, Rinv_0_lt_compat; auto|].
  apply Rmult_le_reg_r with (INR (N - 1)); auto. unfold Rdiv. rewrite Rmult_assoc, Rinv_l by lra. lra.
Qed.
Lemma linspace_zero N : (1 <= N)%nat -> In 0 (linspace01 N).
Proof.
  intros H. unfold linspace01. rewrite in_map_iff. exists 0%nat. split; [|apply in_seq; lia]. destruct (N =? 1)%nat; auto. cbn. unfold Rdiv. ring.
Qed.
Lemma linspace_one N : (2 <= N)%nat -> In 1 (linspace01 N).
Proof.
  intros H. unfold linspace01. rewrite in_map_iff. exists (N - 1)%nat. split; [|apply in_seq; lia]. destruct (Nat.eqb_spec N 1); [lia|].
  unfold Rdiv. apply Rinv_r. apply not_0_INR. lia.
Qed.
Lemma sq_nonneg a : 0 <= sq a.
Proof. unfold sq. nra. Qed.
Lemma wave_nonneg a : 0 <= wave a.
Proof. unfold wave. pose proof (sq_nonneg a). pose proof (COS_bound (4 * PI * a)). lra. Qed.
Lemma wave3_nonneg a : 0 <= wave3 a.
Proof. unfold wave3. pose proof (sq_nonneg a). pose proof (COS_bound (8 * PI * a)). lra. Qed.
Lemma wave_zero : wave 0 = 0.
Proof. unfold wave, sq. replace (4 * PI * 0) with 0 by ring. rewrite cos_0. ring. Qed.
Lemma wave3_zero : wave3 0 = 0.
Proof. unfold wave3, sq. replace (8 * PI * 0) with 0 by ring. rewrite cos_0. ring. Qed.
Lemma sq_zero : sq 0 = 0.
Proof. unfold sq. ring. Qed.
Lemma cos_penalty_nonneg idx z : idx <> [] -> exists p, cos_penalty idx z = Some p /\ 0 <= p.
Proof.
  intros H. unfold cos_penalty. destruct idx as [|i idx]; [congruence|]. eexists; split; [reflexivity|].
  assert (H1 : 0 <= vsum (map sq z)) by (apply vsum_nonneg; apply Forall_forall; intros a Ha; apply in_map_iff in Ha; destruct Ha as (b & <- & _); apply sq_nonneg).
  assert (H2 : forall l : list R, Forall (fun a => Rabs a <= 1) l -> Rabs (vprod l) <= 1).
  { induction 1 as [|a l Ha Hl IH]; cbn; [rewrite Rabs_R1; lra|]. rewrite Rabs_mult. fold (vprod l). pose proof (Rabs_pos a). pose proof (Rabs_pos (vprod l)). nra. }
  match goal with |- context [vprod ?m] => assert (Rabs (vprod m) <= 1) as H3 end.
  { apply H2. apply Forall_forall. intros a Ha. apply in_map_iff in Ha. destruct Ha as (b & <- & _). apply Rabs_le. apply COS_bound. }
  pose proof (Rle_abs (vprod (map (fun iz => cos (20 * PI * snd iz / sqrt (INR (fst iz + 1)))) (combine (i :: idx) z)))).
  apply Rmult_le_pos; [|lra]. apply Rmult_le_pos; [lra|]. apply Rlt_le, Rinv_0_lt_compat, lt_0_INR. cbn; lia.
Qed.
Lemma cos_penalty_zero idx z : idx <> [] -> Forall (fun a => a = 0) z -> cos_penalty idx z = Some 0.
Proof.
  intros H Hz. unfold cos_penalty. destruct idx as [|i idx]; [congruence|]. f_equal.
  rewrite vsum_zero by (apply Forall_map; eapply Forall_impl; [|exact Hz]; cbn; intros a ->; apply sq_zero).
  assert (Hp : forall l : list (nat * R), Forall (fun iz => snd iz = 0) l -> vprod (map (fun iz => cos (20 * PI * snd iz / sqrt (INR (fst iz + 1)))) l) = 1).
  { induction 1 as [|iz l Hi Hl IH]; [reflexivity|]. cbn [map vprod fold_right] in *. unfold vprod in IH. rewrite IH, Hi. unfold Rdiv. rewrite Rmult_0_r, Rmult_0_l, cos_0. ring. }
  rewrite Hp; [ring|]. apply Forall_forall. intros (j, a) Ha. apply in_combine_r in Ha. rewrite Forall_forall in Hz. auto.
Qed.
Lemma clip_id lo hi x : length lo = length x -> length hi = length x ->
  (forall i, (i < length x)%nat -> nth i lo 0 <= nth i x 0 <= nth i hi 0) -> clip lo hi x = x.
Proof.
  revert lo hi. unfold clip. induction x as [|a x IH]; intros lo hi Hl Hh H.
  - destruct lo; [|cbn in Hl; lia]. reflexivity.
  - destruct lo as [|l lo]; [cbn in Hl; lia|]. destruct hi as [|h hi]; [cbn in Hh; lia|]. cbn. f_equal.
    + specialize (H 0%nat ltac:(cbn; lia)). cbn in H. unfold clip1. rewrite Rmax_right by lra. apply Rmin_right; lra.
    + apply IH; cbn in *; try lia. intros i Hi. apply (H (S i)). lia.
Qed.
Lemma bounds_nth n k a b i : (k <= n)%nat -> (i < n)%nat -> nth i (bounds n k a b) 0 = if (i <? k)%nat then a else b.
Proof.
  intros Hk Hi. unfold bounds. destruct (Nat.ltb_spec i k).
  - rewrite app_nth1 by (rewrite repeat_length; auto). rewrite nth_indep with (d' := a) by (rewrite repeat_length; auto). apply nth_repeat.
  - rewrite app_nth2 by (rewrite repeat_length; auto). rewrite repeat_length. rewrite nth_indep with (d' := b) by (rewrite repeat_length; lia). apply nth_repeat.
Qed.
Lemma bounds_length n k a b : (k <= n)%nat -> length (bounds n k a b) = n.
Proof. intros H. unfold bounds. rewrite app_length, !repeat_length. lia. Qed.
Lemma clip_box n k a b c d x : (k <= n)%nat -> in_box n k a b c d x -> clip (bounds n k a c) (bounds n k b d) x = x.
Proof.
  intros Hk (Hl & H). apply clip_id; rewrite ?bounds_length by auto; auto. intros i Hi. rewrite !bounds_nth by lia. specialize (H i ltac:(lia)). destruct (i <? k)%nat; auto.
Qed.
Lemma in_box_first n k a b c d x i : in_box n k a b c d x -> (i < k)%nat -> (k <= n)%nat -> nth_error x i = Some (nth i x 0) /\ a <= nth i x 0 <= b.
Proof.
  intros (Hl & H) Hi Hk. split; [apply nth_error_nth'; lia|]. specialize (H i ltac:(lia)). apply Nat.ltb_lt in Hi. rewrite Hi in H. exact H.
Qed.

(** ** two groups of variables *)
Section Two.
  Variables (n : nat) (J1 J2 : list nat).
  Variables (tgt1 tgt2 : R -> nat -> R).
  Definition obj2 (P1 P2 : list R -> option R) (A B : R -> R) (x : list R) : option (list R) :=
    let? x0 := nth_error x 0 in
    let? y1 := take (minus_at (tgt1 x0) x) J1 in let? y2 := take (minus_at (tgt2 x0) x) J2 in
    let? p := P1 y1 in let? q := P2 y2 in Some [A x0 + p; B x0 + q].
  Definition point2 (t : R) : list R := t :: map (fun i => if Nat.even i then tgt1 t i else tgt2 t i) (seq 1 (n - 1)).
  Hypothesis Hn : (1 <= n)%nat.
  Hypothesis HJ1 : forall i, In i J1 -> (1 <= i < n)%nat /\ Nat.even i = true.
  Hypothesis HJ2 : forall i, In i J2 -> (1 <= i < n)%nat /\ Nat.even i = false.
  Lemma point2_length t : length (point2 t) = n.
  Proof. unfold point2. cbn. rewrite map_length, seq_length. lia. Qed.
  Lemma point2_nth t i : (1 <= i < n)%nat -> nth i (point2 t) 0 = if Nat.even i then tgt1 t i else tgt2 t i.
  Proof.
    intros H. unfold point2. destruct i as [|i]; [lia|]. cbn [nth].
    rewrite (nth_map_default _ _ _ 0%nat) by (rewrite seq_length; lia). rewrite seq_nth by lia. reflexivity.
  Qed.
  Lemma obj2_eq P1 P2 A B x : length x = n ->
    obj2 P1 P2 A B x = let? p := P1 (map (fun i => nth i x 0 - tgt1 (nth 0 x 0) i) J1) in let? q := P2 (map (fun i => nth i x 0 - tgt2 (nth 0 x 0) i) J2) in
                       Some [A (nth 0 x 0) + p; B (nth 0 x 0) + q].
  Proof.
    intros Hl. unfold obj2. rewrite (nth_error_nth' x 0) by lia.
    rewrite take_minus by (intros i Hi; apply HJ1 in Hi; lia). rewrite take_minus by (intros i Hi; apply HJ2 in Hi; lia). reflexivity.
  Qed.
  Hypotheses (N1 : J1 <> []) (N2 : J2 <> []).
  Variables (P1 P2 : list R -> option R).
  Hypothesis G1 : forall l, l <> [] -> exists p, P1 l = Some p /\ 0 <= p.
  Hypothesis G2 : forall l, l <> [] -> exists p, P2 l = Some p /\ 0 <= p.
  Hypothesis Z1 : forall l, l <> [] -> Forall (fun a => a = 0) l -> P1 l = Some 0.
  Hypothesis Z2 : forall l, l <> [] -> Forall (fun a => a = 0) l -> P2 l = Some 0.
  Lemma map_nonnil {A B} (g : A -> B) l : l <> [] -> map g l <> [].
  Proof. destruct l; cbn; congruence. Qed.
  Lemma obj2_value A B x : length x = n -> exists p q, 0 <= p /\ 0 <= q /\ obj2 P1 P2 A B x = Some [A (nth 0 x 0) + p; B (nth 0 x 0) + q].
  Proof.
    intros Hl. rewrite obj2_eq by auto.
    edestruct G1 as (p & -> & Hp); [|]; [apply map_nonnil; auto|]. edestruct G2 as (q & -> & Hq); [|]; [apply map_nonnil; auto|].
    exists p, q. auto.
  Qed.
  Lemma obj2_point A B t : obj2 P1 P2 A B (point2 t) = Some [A t; B t].
  Proof.
    rewrite obj2_eq by apply point2_length.
    rewrite Z1; [rewrite Z2|apply map_nonnil; auto|].
    - f_equal. cbn [point2 nth]. f_equal; [ring|]. f_equal. ring.
    - apply map_nonnil; auto.
    - apply Forall_forall. intros a Ha. apply in_map_iff in Ha. destruct Ha as (i & <- & Hi). apply HJ2 in Hi. destruct Hi as (Hi & He).
      rewrite point2_nth by auto. rewrite He. cbn [point2 nth]. ring.
    - apply Forall_forall. intros a Ha. apply in_map_iff in Ha. destruct Ha as (i & <- & Hi). apply HJ1 in Hi. destruct Hi as (Hi & He).
      rewrite point2_nth by auto. rewrite He. cbn [point2 nth]. ring.
  Qed.
  Lemma point2_box a b c d t : a <= t <= b ->
    (forall i, (1 <= i < n)%nat -> c <= (if Nat.even i then tgt1 t i else tgt2 t i) <= d) -> in_box n 1 a b c d (point2 t).
  Proof.
    intros Ht H. split; [apply point2_length|]. intros [|i] Hi; [exact Ht|]. cbn [Nat.ltb Nat.leb]. rewrite point2_nth by lia. apply H. lia.
  Qed.
End Two.
