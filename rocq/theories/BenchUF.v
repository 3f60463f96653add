From Coq Require Import List Arith Bool Lia Reals Lra Psatz.
From Verif Require Import ListAux ProbModel NewtonModel BenchModel BenchSpec BenchBase BenchTrig.
Import ListNotations.
Open Scope R_scope.

Definition uf_box (n : nat) (lo hi : R) : list R -> Prop := in_box n 1 0 1 lo hi.

Lemma front2 n lo hi f (A B : R -> R) (D : R -> Prop) phi : (1 <= n)%nat ->
  (forall x, length x = n -> exists p q, 0 <= p /\ 0 <= q /\ f x = Some [A (nth 0 x 0) + p; B (nth 0 x 0) + q]) ->
  (forall t, D t -> exists x, uf_box n lo hi x /\ f x = Some [t; phi t]) ->
  (forall t, 0 <= t <= 1 -> exists s, D s /\ s <= A t /\ phi s <= B t) ->
  (forall s t, D s -> D t -> s < t -> phi t < phi s) -> front (uf_box n lo hi) f (graph D phi).
Proof.
  intros Hn Hv Ha Hc Hd. apply front_intro; [| |apply graph_antichain; auto].
  - intros x Hx. destruct (in_box_first _ _ _ _ _ _ x 0 Hx ltac:(lia) Hn) as (_ & H0). destruct (Hv x (proj1 Hx)) as (p & q & Hp & Hq & E).
    rewrite E. eexists. split; [reflexivity|]. destruct (Hc _ H0) as (s & Ds & H1 & H2). exists [s; phi s]. split; [exists s; auto|]. apply wdom2. lra.
  - intros u (t & Dt & ->). destruct (Ha t Dt) as (x & Hx & E). exists x; auto.
Qed.

Lemma uf_odd_in n i : In i (uf_odd n) -> (1 <= i < n)%nat /\ Nat.even i = true.
Proof.
  intros H. apply arange_in in H; [|lia]. destruct H as (k & -> & H). split; [lia|]. apply Nat.even_spec. exists (1 + k)%nat. lia.
Qed.
Lemma uf_even_in n i : In i (uf_even n) -> (1 <= i < n)%nat /\ Nat.even i = false.
Proof.
  intros H. apply arange_in in H; [|lia]. destruct H as (k & -> & H). split; [lia|]. rewrite <- Nat.negb_odd. apply negb_false_iff. apply Nat.odd_spec. exists k. lia.
Qed.
Lemma nonnil_in {A} (a : A) l : In a l -> l <> [].
Proof. intros H ->. destruct H. Qed.
Lemma uf_odd_nonnil n : (3 <= n)%nat -> uf_odd n <> [].
Proof. intros H. apply (nonnil_in 2%nat). apply arange_in; [lia|]. exists 0%nat. lia. Qed.
Lemma uf_even_nonnil n : (3 <= n)%nat -> uf_even n <> [].
Proof. intros H. apply (nonnil_in 1%nat). apply arange_in; [lia|]. exists 0%nat. lia. Qed.

(** penalties *)
Definition mean2_of (g : R -> R) (l : list R) : option R := mean2 (map g l).
Lemma mean2_of_nonneg g : (forall a, 0 <= g a) -> forall l, l <> [] -> exists p, mean2_of g l = Some p /\ 0 <= p.
Proof.
  intros Hg l Hl. apply mean2_nonneg; [destruct l; cbn; congruence|]. apply Forall_forall. intros a Ha. apply in_map_iff in Ha. destruct Ha as (b & <- & _). auto.
Qed.
Lemma mean2_of_zero g : g 0 = 0 -> forall l, l <> [] -> Forall (fun a => a = 0) l -> mean2_of g l = Some 0.
Proof. intros Hg l Hl H. apply mean2_zero; [destruct l; cbn; congruence|]. apply Forall_map. eapply Forall_impl; [|exact H]. cbn. intros a ->. exact Hg. Qed.

Section UF.
  Variable n : nat.
  Hypothesis Hn : (3 <= n)%nat.
  Lemma uf_value tgt1 tgt2 P1 P2 A B f :
    (forall x, f x = obj2 (uf_odd n) (uf_even n) tgt1 tgt2 P1 P2 A B x) ->
    (forall l, l <> [] -> exists p, P1 l = Some p /\ 0 <= p) -> (forall l, l <> [] -> exists p, P2 l = Some p /\ 0 <= p) ->
    forall x, length x = n -> exists p q, 0 <= p /\ 0 <= q /\ f x = Some [A (nth 0 x 0) + p; B (nth 0 x 0) + q].
  Proof.
    intros Hf G1 G2 x Hx. rewrite Hf. apply obj2_value with (n := n); auto using uf_odd_in, uf_even_in, uf_odd_nonnil, uf_even_nonnil. lia.
  Qed.
  Lemma uf_point tgt1 tgt2 P1 P2 A B f lo hi t :
    (forall x, f x = obj2 (uf_odd n) (uf_even n) tgt1 tgt2 P1 P2 A B x) ->
    (forall l, l <> [] -> Forall (fun a => a = 0) l -> P1 l = Some 0) -> (forall l, l <> [] -> Forall (fun a => a = 0) l -> P2 l = Some 0) ->
    0 <= t <= 1 -> (forall i, (1 <= i < n)%nat -> lo <= tgt1 t i <= hi /\ lo <= tgt2 t i <= hi) ->
    exists x, uf_box n lo hi x /\ f x = Some [A t; B t].
  Proof.
    intros Hf Z1 Z2 Ht Hb. exists (point2 n tgt1 tgt2 t). split.
    - apply point2_box; auto; [lia|]. intros i Hi. destruct (Hb i Hi). destruct (Nat.even i); auto.
    - rewrite Hf. apply obj2_point; auto using uf_odd_in, uf_even_in, uf_odd_nonnil, uf_even_nonnil. lia.
  Qed.
End UF.

Lemma sine_bound n t i : -1 <= sine n t i <= 1.
Proof. apply SIN_bound. Qed.
Lemma cosine_bound n t i : -1 <= cosine n t i <= 1.
Proof. apply COS_bound. Qed.
Lemma sqrt_strict s t : 0 <= s -> s < t -> sqrt s < sqrt t.
Proof. intros. apply sqrt_lt_1; lra. Qed.

Lemma uf1_front_spec n : (3 <= n)%nat -> front (uf_box n (-1) 1) (uf1 n) (graph unit_interval (fun t => 1 - sqrt t)).
Proof.
  intros Hn. assert (Hf : forall x, uf1 n x = obj2 (uf_odd n) (uf_even n) (sine n) (sine n) (mean2_of sq) (mean2_of sq) (fun t => t) (fun t => 1 - sqrt t) x) by reflexivity.
  apply (front2 n _ _ _ (fun t => t) (fun t => 1 - sqrt t)); [lia| | | |].
  - refine (uf_value n Hn _ _ _ _ _ _ _ Hf _ _); apply mean2_of_nonneg; apply sq_nonneg.
  - intros t Ht. refine (uf_point n Hn _ _ _ _ (fun t => t) (fun t => 1 - sqrt t) _ _ _ t Hf _ _ Ht _); eauto using mean2_of_zero, sq_zero. intros. split; apply sine_bound.
  - intros t Ht. exists t. split; [exact Ht|lra].
  - intros s t Hs Ht H. pose proof (sqrt_strict s t (proj1 Hs) H). lra.
Qed.
Lemma uf2_bound (trig : R -> R) n t i : (forall a, -1 <= trig a <= 1) -> 0 <= t <= 1 -> -1 <= uf2_tgt trig n t i <= 1.
Proof.
  intros Ht H. unfold uf2_tgt. match goal with |- context [cos ?a] => pose proof (COS_bound a); set (c := cos a) in * end.
  match goal with |- context [trig ?a] => specialize (Ht a); set (u := trig a) in * end.
  assert (0 <= sq t <= 1) by (unfold sq; nra). set (e := 0.3 * sq t * c + 0.6 * t).
  assert (-1 <= e <= 1) by (unfold e; nra). nra.
Qed.
Lemma uf2_front_spec n : (3 <= n)%nat -> front (uf_box n (-1) 1) (uf2 n) (graph unit_interval (fun t => 1 - sqrt t)).
Proof.
  intros Hn. assert (Hf : forall x, uf2 n x = obj2 (uf_odd n) (uf_even n) (uf2_tgt cos n) (uf2_tgt sin n) (mean2_of sq) (mean2_of sq) (fun t => t) (fun t => 1 - sqrt t) x) by reflexivity.
  apply (front2 n _ _ _ (fun t => t) (fun t => 1 - sqrt t)); [lia| | | |].
  - refine (uf_value n Hn _ _ _ _ _ _ _ Hf _ _); apply mean2_of_nonneg; apply sq_nonneg.
  - intros t Ht. refine (uf_point n Hn _ _ _ _ (fun t => t) (fun t => 1 - sqrt t) _ _ _ t Hf _ _ Ht _); eauto using mean2_of_zero, sq_zero.
    intros. split; apply uf2_bound; auto using COS_bound, SIN_bound.
  - intros t Ht. exists t. split; [exact Ht|lra].
  - intros s t Hs Ht H. pose proof (sqrt_strict s t (proj1 Hs) H). lra.
Qed.
Lemma pw_unit t e : 0 <= t <= 1 -> 0 < e -> 0 <= pw t e <= 1.
Proof.
  intros H He. unfold pw. destruct (reqb t 0) eqn:E.
  - destruct (reqb e 0); lra.
  - apply reqb_false in E. unfold Rpower. split; [apply Rlt_le, exp_pos|]. rewrite <- exp_0.
    assert (ln t <= 0). { rewrite <- ln_1. destruct (Req_dec t 1) as [->|]; [lra|]. apply Rlt_le, ln_increasing; lra. }
    destruct (Req_dec (e * ln t) 0) as [->|]; [lra|]. apply Rlt_le, exp_increasing. nra.
Qed.
Lemma power_tgt_bound n t i : (3 <= n)%nat -> (1 <= i)%nat -> 0 <= t <= 1 -> 0 <= power_tgt n t i <= 1.
Proof.
  intros Hn Hi Ht. unfold power_tgt. apply pw_unit; auto. assert (3 <= INR n) by (apply (le_INR 3) in Hn; cbn in Hn; lra).
  assert (2 <= INR (i + 1)) by (apply (le_INR 2); lia). assert (0 <= 3 * (INR (i + 1) - 2) / (INR n - 2)); [|lra].
  apply Rmult_le_pos; [lra|]. apply Rlt_le, Rinv_0_lt_compat. lra.
Qed.
Lemma uf3_front_spec n : (3 <= n)%nat -> front (uf_box n 0 1) (uf3 n) (graph unit_interval (fun t => 1 - sqrt t)).
Proof.
  intros Hn. assert (Hf : forall x, uf3 n x = obj2 (uf_odd n) (uf_even n) (power_tgt n) (power_tgt n) (cos_penalty (uf_odd n)) (cos_penalty (uf_even n)) (fun t => t) (fun t => 1 - sqrt t) x) by reflexivity.
  apply (front2 n _ _ _ (fun t => t) (fun t => 1 - sqrt t)); [lia| | | |].
  - refine (uf_value n Hn _ _ _ _ _ _ _ Hf _ _); intros; apply cos_penalty_nonneg; auto using uf_odd_nonnil, uf_even_nonnil.
  - intros t Ht. refine (uf_point n Hn _ _ _ _ (fun t => t) (fun t => 1 - sqrt t) _ _ _ t Hf _ _ Ht _); eauto using cos_penalty_zero, uf_odd_nonnil, uf_even_nonnil.
    intros i Hi. split; apply power_tgt_bound; auto; lia.
  - intros t Ht. exists t. split; [exact Ht|lra].
  - intros s t Hs Ht H. pose proof (sqrt_strict s t (proj1 Hs) H). lra.
Qed.
Definition uf4_h (a : R) : R := Rabs a / (1 + exp (2 * Rabs a)).
Lemma uf4_h_nonneg a : 0 <= uf4_h a.
Proof. apply Rmult_le_pos; [apply Rabs_pos|]. pose proof (exp_pos (2 * Rabs a)). apply Rlt_le, Rinv_0_lt_compat. lra. Qed.
Lemma uf4_h_zero : uf4_h 0 = 0.
Proof. unfold uf4_h. rewrite Rabs_R0. unfold Rdiv. ring. Qed.
(** applying a function to all entries before or after selecting some *)
Lemma obj2_take_map J1 J2 tgt g A B x :
  (let? x0 := nth_error x 0 in let h := map g (minus_at (tgt x0) x) in
   let? ho := take h J1 in let? he := take h J2 in let? p := mean2 ho in let? q := mean2 he in Some [A x0 + p; B x0 + q])
  = obj2 J1 J2 tgt tgt (mean2_of g) (mean2_of g) A B x.
Proof.
  unfold obj2. destruct (nth_error x 0); [|reflexivity]. cbn zeta. rewrite !take_map. destruct (take _ J1); [|reflexivity]. destruct (take _ J2); reflexivity.
Qed.
Lemma sq_strict s t : 0 <= s -> s < t -> sq s < sq t.
Proof. unfold sq. nra. Qed.
Lemma uf4_front_spec n : (3 <= n)%nat -> front (uf_box n (-2) 2) (uf4 n) (graph unit_interval (fun t => 1 - sq t)).
Proof.
  intros Hn. assert (Hf : forall x, uf4 n x = obj2 (uf_odd n) (uf_even n) (sine n) (sine n) (mean2_of uf4_h) (mean2_of uf4_h) (fun t => t) (fun t => 1 - sq t) x).
  { intros x. exact (obj2_take_map _ _ (sine n) uf4_h (fun t => t) (fun t => 1 - sq t) x). }
  apply (front2 n _ _ _ (fun t => t) (fun t => 1 - sq t)); [lia| | | |].
  - refine (uf_value n Hn _ _ _ _ _ _ _ Hf _ _); apply mean2_of_nonneg; apply uf4_h_nonneg.
  - intros t Ht. refine (uf_point n Hn _ _ _ _ (fun t => t) (fun t => 1 - sq t) _ _ _ t Hf _ _ Ht _); eauto using mean2_of_zero, uf4_h_zero. intros i Hi. pose proof (sine_bound n t i). lra.
  - intros t Ht. exists t. split; [exact Ht|lra].
  - intros s t Hs Ht H. pose proof (sq_strict s t (proj1 Hs) H). lra.
Qed.
Definition line (t : R) : R := 1 - t.
Lemma line_strict s t : s < t -> line t < line s.
Proof. unfold line. lra. Qed.
Lemma uf5_front_spec n : (3 <= n)%nat -> front (uf_box n (-1) 1) (uf5 n) (graph (grid 20) (fun t => 1 - t)).
Proof.
  intros Hn. set (A := fun t => t + 0.15 * Rabs (sin (20 * PI * t))). set (B := fun t => 1 - t + 0.15 * Rabs (sin (20 * PI * t))).
  assert (Hf : forall x, uf5 n x = obj2 (uf_odd n) (uf_even n) (sine n) (sine n) (mean2_of wave) (mean2_of wave) A B x).
  { intros x. exact (obj2_take_map _ _ (sine n) wave A B x). }
  assert (E20 : INR 20 = 20) by (cbn; ring).
  apply (front2 n _ _ _ A B); [lia| | | |].
  - refine (uf_value n Hn _ _ _ _ _ _ _ Hf _ _); apply mean2_of_nonneg; apply wave_nonneg.
  - intros t Ht. pose proof (grid_sin 20 t ltac:(lia) Ht) as Hs. rewrite E20 in Hs.
    replace [t; 1 - t] with [A t; B t] by (unfold A, B; rewrite Hs, Rabs_R0; f_equal; [ring|f_equal; ring]).
    apply (uf_point n Hn (sine n) (sine n) (mean2_of wave) (mean2_of wave) A B); eauto using mean2_of_zero, wave_zero; [apply (grid_unit 20); auto; lia|].
    intros i Hi. split; apply sine_bound.
  - intros t Ht. destruct (near_grid 20 t ltac:(lia) Ht) as (k & Hk & H). exists k. split; auto. rewrite E20 in H. unfold A, B.
    pose proof (Rle_abs (t - k)). pose proof (Rle_abs (- (t - k))). rewrite Rabs_Ropp in *. lra.
  - intros s t _ _ H. lra.
Qed.
Lemma uf6_front_spec n : (3 <= n)%nat -> front (uf_box n (-1) 1) (uf6 n) (graph bands (fun t => 1 - t)).
Proof.
  intros Hn. set (A := fun t => t + Rmax 0 (0.7 * sin (4 * PI * t))). set (B := fun t => 1 - t + Rmax 0 (0.7 * sin (4 * PI * t))).
  assert (Hf : forall x, uf6 n x = obj2 (uf_odd n) (uf_even n) (sine n) (sine n) (cos_penalty (uf_odd n)) (cos_penalty (uf_even n)) A B x) by reflexivity.
  apply (front2 n _ _ _ A B); [lia| | | |].
  - refine (uf_value n Hn _ _ _ _ _ _ _ Hf _ _); intros; apply cos_penalty_nonneg; auto using uf_odd_nonnil, uf_even_nonnil.
  - intros t Ht. pose proof (bands_sin t Ht) as Hs.
    replace [t; 1 - t] with [A t; B t] by (unfold A, B; rewrite Rmax_left by lra; f_equal; [ring|f_equal; ring]).
    apply (uf_point n Hn (sine n) (sine n) (cos_penalty (uf_odd n)) (cos_penalty (uf_even n)) A B); eauto using cos_penalty_zero, uf_odd_nonnil, uf_even_nonnil; [apply bands_unit; auto|].
    intros i Hi. split; apply sine_bound.
  - intros t Ht. destruct (near_bands t Ht) as (k & Hk & H). exists k. split; auto. unfold A, B.
    assert (0.7 * Rmax 0 (sin (4 * PI * t)) <= Rmax 0 (0.7 * sin (4 * PI * t))).
    { unfold Rmax at 1. destruct (Rle_dec 0 (sin (4 * PI * t))); [apply Rmax_r|rewrite Rmult_0_r; apply Rmax_l]. }
    pose proof (Rle_abs (t - k)). pose proof (Rle_abs (- (t - k))). rewrite Rabs_Ropp in *. pose proof (Rabs_pos (t - k)). lra.
  - intros s t _ _ H. lra.
Qed.
Lemma pw_fifth s : 0 <= s -> pw (s ^ 5) 0.2 = s.
Proof.
  intros H. unfold pw. destruct (Req_dec s 0) as [->|Hs].
  - replace (0 ^ 5) with 0 by ring. destruct (reqb 0 0) eqn:E; [|apply reqb_false in E; congruence].
    destruct (reqb 0.2 0) eqn:E2; auto. apply reqb_true in E2. lra.
  - assert (0 < s) by lra. assert (0 < s ^ 5) by (apply pow_lt; auto). destruct (reqb (s ^ 5) 0) eqn:E; [apply reqb_true in E; lra|].
    rewrite <- Rpower_pow by auto. rewrite Rpower_mult. replace (INR 5 * 0.2) with 1 by (cbn; lra). apply Rpower_1; auto.
Qed.
Lemma uf7_front_spec n : (3 <= n)%nat -> front (uf_box n (-1) 1) (uf7 n) (graph unit_interval (fun t => 1 - t)).
Proof.
  intros Hn. set (A := fun t => pw t 0.2). set (B := fun t => 1 - pw t 0.2).
  assert (Hf : forall x, uf7 n x = obj2 (uf_odd n) (uf_even n) (sine n) (sine n) (mean2_of sq) (mean2_of sq) A B x) by reflexivity.
  apply (front2 n _ _ _ A B); [lia| | | |].
  - refine (uf_value n Hn _ _ _ _ _ _ _ Hf _ _); apply mean2_of_nonneg; apply sq_nonneg.
  - intros t Ht. replace [t; 1 - t] with [A (t ^ 5); B (t ^ 5)] by (unfold A, B; rewrite pw_fifth by apply Ht; auto).
    apply (uf_point n Hn (sine n) (sine n) (mean2_of sq) (mean2_of sq) A B); eauto using mean2_of_zero, sq_zero.
    + split; [apply pow_le; apply Ht|]. destruct Ht. rewrite <- (pow1 5). apply pow_incr. auto.
    + intros i Hi. split; apply sine_bound.
  - intros t Ht. exists (A t). split; [apply pw_unit; lra|]. unfold A, B. lra.
  - intros s t _ _ H. lra.
Qed.
