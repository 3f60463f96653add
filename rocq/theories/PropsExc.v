(** Property theorems: the problems defined in the example scripts of HVN and DpN. *)
From Coq Require Import List Arith Lia ZArith Reals Lra Psatz.
From Verif Require Import BenchSpec ExcSpec ExcModel ExcProof.
Import ListNotations.
Open Scope R_scope.

(** * C184: three centres *)
(** Jacobian and Hessian are those of the objectives *)
Theorem C184_derivatives : forall C a b d a' b' d' v v' J, mop3 C [a; b; d] = Some v -> mop3 C (add3 [a; b; d] [a'; b'; d']) = Some v' -> mop3_jac C [a; b; d] = Some J ->
  length v = 3%nat /\ forall i, (i < 3)%nat -> taylor (nth i v 0) (nth i v' 0) (nth i J []) [a'; b'; d'] (nth i (mop3_hess [a; b; d]) []).
Proof.
  intros [[[p1 p2] p3] [[q1 q2] q3] [[r1 r2] r3]] a b d a' b' d' v v' J Ev Ev' EJ. cbn [mop3 mop3_jac add3 combine map fst snd k1 k2 k3] in *. unfold sq3, grad3 in *.
  injection Ev as <-. injection Ev' as <-. injection EJ as <-. split; [reflexivity|]. intros [|[|[|i]]] Hi; [| | |lia]; unfold taylor, quad, dot; simpl; lra.
Qed.
Print Assumptions C184_derivatives.
Theorem C184_constraint_derivatives : forall a b d a' b' d',
  taylor (ex1_h a b d) (ex1_h (a + a') (b + b') (d + d')) (ex1_h_jac a b d) [a'; b'; d'] [[2; 0; 0]; [0; 2; 0]; [0; 0; 2]] /\
  taylor (ex2_h a b d) (ex2_h (a + a') (b + b') (d + d')) (ex2_h_jac a b d) [a'; b'; d'] [[0; 0; 0]; [0; 0; 0]; [0; 0; 0]].
Proof. intros. split; unfold taylor, quad, dot, ex1_h, ex1_h_jac, ex2_h, ex2_h_jac, sq3, grad3, mid; simpl; lra. Qed.
Print Assumptions C184_constraint_derivatives.

(** convex combinations of the centres are optimal without constraints *)
Theorem C184_hull : forall C w1 w2 w3 a b c u, 0 <= w1 -> 0 <= w2 -> 0 <= w3 -> w1 + w2 + w3 = 1 ->
  a = w1 * fst (fst (k1 C)) + w2 * fst (fst (k2 C)) + w3 * fst (fst (k3 C)) ->
  b = w1 * snd (fst (k1 C)) + w2 * snd (fst (k2 C)) + w3 * snd (fst (k3 C)) ->
  c = w1 * snd (k1 C) + w2 * snd (k2 C) + w3 * snd (k3 C) -> mop3 C [a; b; c] = Some u -> optimal (fun x => length x = 3%nat) (mop3 C) u.
Proof.
  intros C w1 w2 w3 a b c u H1 H2 H3 E Ea Eb Ec Eu. split; [exists [a; b; c]; auto|]. intros y v Hy Ev Hd. exact (hull_opt C w1 w2 w3 a b c H1 H2 H3 E Ea Eb Ec y v u Ev Eu Hd).
Qed.
Print Assumptions C184_hull.

(** 3D_example1: the sampled points are on the sphere and optimal there *)
Definition on_sphere (x : list R) : Prop := exists a b d, x = [a; b; d] /\ -2 <= a <= 2 /\ -2 <= b <= 2 /\ -2 <= d <= 2 /\ ex1_h a b d = 0.
Theorem C184_sphere : forall p, In p ex1_points -> on_sphere (onto p) /\ exists u, mop3 ex1 (onto p) = Some u /\ optimal on_sphere (mop3 ex1) u.
Proof.
  intros p Hp. apply ex1_tri in Hp. destruct (onto_opt p Hp) as (a & b & d & E & Hh & Ho).
  assert (F : on_sphere (onto p)).
  { exists a, b, d. split; [exact E|]. assert (D : -1.5 < d).
    { unfold onto, mid in E. apply (f_equal (fun l => nth 2 l 0)) in E. cbn [nth] in E. rewrite <- E. set (r := sqrt _). assert (0 < r).
      { apply sqrt_lt_R0. match goal with |- 0 < ?s ^ 2 + ?t ^ 2 + _ => pose proof (pow2_ge_0 s); pose proof (pow2_ge_0 t) end. lra. }
      assert (0 < (0 - -1.5) / r) by (apply Rdiv_lt_0_compat; lra). lra. }
    destruct root3 as [R1 R2]. assert (B1 : 1.5 < sqrt 3 < 2) by nra. assert (M : 0 < 2 / sqrt 3 - 1 < 0.5).
    { assert (Em : 2 / sqrt 3 * sqrt 3 = 2) by (field; lra). set (m := 2 / sqrt 3) in *. nra. }
    pose proof Hh as Hh'. unfold ex1_h, mid, sq3 in Hh. set (m := 2 / sqrt 3 - 1) in *.
    pose proof (pow2_ge_0 (a - m)). pose proof (pow2_ge_0 (b - 0)). pose proof (pow2_ge_0 (d - -1.5)).
    assert (-1 <= a - m <= 1) by nra. assert (-1 <= b - 0 <= 1) by nra. assert (-1 <= d - -1.5 <= 1) by nra. repeat split; try lra; exact Hh'. }
  split; [exact F|]. rewrite E in *. destruct (mop3 ex1 [a; b; d]) as [u|] eqn:Eu; [|discriminate]. exists u. split; [auto|]. split.
  - exists [a; b; d]. auto.
  - intros x v (a' & b' & d' & -> & _ & _ & _ & Hh') Ev Hd. exact (Ho a' b' d' v u Hh' Ev eq_refl Hd).
Qed.
Print Assumptions C184_sphere.

(** 3D_example2 with the constraint of the DpN script: which points are optimal *)
Theorem C184_plane : forall a b c u, 0 <= a -> mop3 ex2 [a; b; c] = Some u ->
  (undominated (fun x => exists a b c, x = [a; b; c] /\ 0 <= a) (mop3 ex2) u <-> a = 0 /\ tri2 (b, c)).
Proof.
  intros a b c u Ha Eu. split.
  - intros Ho. assert (A : a = 0).
    { destruct (Req_dec a 0) as [|N]; [auto|exfalso]. refine (Ho [0; b; c] _ (ex_intro _ 0 (ex_intro _ b (ex_intro _ c (conj eq_refl (Rle_refl 0))))) eq_refl _).
      cbn [mop3 ex2 k1 k2 k3] in Eu. injection Eu as <-. cbn [ex2 k1 k2 k3]. unfold sq3. assert (P : 0 < a * a) by nra. apply dom3; lra. }
    subst a. split; [auto|]. destruct (Rlt_dec (b1 (b, c)) 0) as [N1|N1]; [|destruct (Rlt_dec (b2 (b, c)) 0) as [N2|N2]; [|destruct (Rlt_dec (b3 (b, c)) 0) as [N3|N3]]].
    4: apply tri2_weights; lra.
    all: exfalso; destruct (outside (b, c)) as (q & Hq); [rewrite tri2_weights; lra|]; destruct (mop3 ex2 (flat0 q)) as [v|] eqn:Ev; [|discriminate];
      refine (Ho (flat0 q) v _ Ev (Hq v u eq_refl Eu)); exists 0, (fst q), (snd q); split; [reflexivity|lra].
  - intros [-> Ht] x v (a' & b' & c' & -> & Ha') Ev Hd. exact (inside_opt (b, c) a' b' c' v u Ht Ha' Ev Eu Hd).
Qed.
Print Assumptions C184_plane.
(** the ends of the sampled rows are not *)
Theorem C184_rows_refuted : forall i p u, (i < 50)%nat -> (2 <= ex2_n (ex2_z i))%nat ->
  p = ((ex2_z i + 6) / -5 - 0.01, ex2_z i) \/ p = (ex2_right (ex2_z i) + 0.01, ex2_z i) -> mop3 ex2 (flat0 p) = Some u ->
  In p ex2_points /\ ~ undominated (fun x => exists a b c, x = [a; b; c] /\ 0 <= a) (mop3 ex2) u.
Proof.
  intros i p u Hi Hn Hp Eu. assert (H : In p (ex2_row i) /\ ~ tri2 p).
  { destruct Hp as [->| ->]; [apply (row_left i); lia|apply (row_right i); auto]. }
  destruct H as [H1 H2]. split.
  - unfold ex2_points. apply in_app_iff. right. apply in_flat_map. exists i. split; [apply in_seq; lia|auto].
  - intros Ho. apply (C184_plane 0 (fst p) (snd p) u (Rle_refl 0) Eu) in Ho. destruct Ho as [_ Ho]. apply H2. destruct p. exact Ho.
Qed.
Print Assumptions C184_rows_refuted.
(** with the constraint of the HVN script (g = x[0] <= 0) no reported point is optimal *)
Definition left_half (x : list R) : Prop := exists a b c, x = [a; b; c] /\ -4 <= a <= 4 /\ -4 <= b <= 4 /\ -4 <= c <= 4 /\ ex2_h a b c <= 0.
Theorem C184_hvn_refuted : forall p, In p ex2_points -> left_half (flat0 p) /\ exists u, mop3 ex2 (flat0 p) = Some u /\ ~ optimal left_half (mop3 ex2) u.
Proof.
  intros p Hp. apply ex2_bounds in Hp. destruct p as [b c]. cbn [fst snd] in Hp. split.
  - exists 0, b, c. split; [reflexivity|]. unfold ex2_h. lra.
  - eexists. split; [reflexivity|]. intros [_ Ho]. refine (Ho [-1; b; c] _ _ eq_refl _).
    + exists (-1), b, c. split; [reflexivity|]. unfold ex2_h. lra.
    + cbn [ex2 k1 k2 k3 fst snd]. unfold sq3. apply dom3; lra.
Qed.
Print Assumptions C184_hvn_refuted.

Lemma int_at_least k r : IZR k <= r -> (k <= Int_part r)%Z.
Proof. intros H. destruct (base_Int_part r) as [_ H2]. assert (IZR k < IZR (Int_part r + 1)) by (rewrite plus_IZR; lra). apply lt_IZR in H0. lia. Qed.
Example C184_example : (2 <= ex2_n (ex2_z 10))%nat /\ tri2 (-2 / 3, 4 / 3) /\ In (-1, 0) ex1_points.
Proof.
  split; [|split].
  - unfold ex2_n. assert (H : (2 <= Int_part (10 * (ex2_right (ex2_z 10) - ex2_left (ex2_z 10))))%Z).
    { apply int_at_least. assert (E : ex2_z 10 = -1.01 + 10 * (5 / 49)) by (unfold ex2_z, lin; cbn [Nat.eqb]; rewrite !INR_IZR_INZ; cbn [Nat.sub Z.of_nat Pos.of_succ_nat Pos.succ]; lra). rewrite E. unfold ex2_right, ex2_left. destruct (Rle_dec _ _); lra. }
    lia.
  - exists 0, (2 / 3), (1 / 3). cbn [fst snd]. repeat split; lra.
  - unfold ex1_points. apply in_flat_map. exists 0%nat. split; [apply in_seq; lia|]. left. rewrite !lin_first. f_equal. lra.
Qed.

(** * C185: two objectives *)
(** EqCon1: the front is that of the segment from -1 to 1 *)
Definition on_axis (B : R) (x : list R) : Prop := exists a b, x = [a; b] /\ - B <= a <= B /\ - B <= b <= B /\ eq1_h a b = 0.
Theorem C185_eqcon : forall B e, 1 <= B -> front (on_axis B) (eq1 e) (fun u => exists a, -1 <= a <= 1 /\ u = [(a + 1) ^ 2 + 1; (a - 1) ^ 2 + e ^ 2]).
Proof.
  intros B e HB.
  assert (V : forall a, eq1 e [a; 0] = Some [(a + 1) ^ 2 + 1; (a - 1) ^ 2 + e ^ 2]) by (intros a; cbn [eq1]; do 2 f_equal; [ring|f_equal; ring]).
  assert (F : forall a, - B <= a <= B -> on_axis B [a; 0]) by (intros a Ha; exists a, 0; unfold eq1_h; split; [reflexivity|lra]).
  assert (Far : forall a, exists t, -1 <= t <= 1 /\ wdom [(t + 1) ^ 2 + 1; (t - 1) ^ 2 + e ^ 2] [(a + 1) ^ 2 + 1; (a - 1) ^ 2 + e ^ 2] /\ ((-1 <= a <= 1) -> t = a) /\ (~ -1 <= a <= 1 -> (t + 1) ^ 2 < (a + 1) ^ 2)).
  { intros a. destruct (Rlt_dec a (-1)) as [L|L]; [|destruct (Rlt_dec 1 a) as [G|G]].
    - exists (-1). split; [lra|]. split; [constructor; [nra|constructor; [nra|constructor]]|]. split; [lra|nra].
    - exists 1. split; [lra|]. split; [constructor; [nra|constructor; [nra|constructor]]|]. split; [lra|nra].
    - exists a. split; [lra|]. split; [constructor; [lra|constructor; [lra|constructor]]|]. split; [auto|lra]. }
  split.
  - intros u. split.
    + intros [(x & (a & b & -> & Ha & Hb & Hz) & Eu) Ho]. unfold eq1_h in Hz. subst b. rewrite V in Eu. injection Eu as <-. exists a. split; [|reflexivity].
      destruct (Far a) as (t & Ht & Hw & _ & Hs). assert (D : {-1 <= a <= 1} + {~ -1 <= a <= 1}) by (destruct (Rle_dec (-1) a); destruct (Rle_dec a 1); (left; lra) || (right; lra)).
      destruct D as [|N]; [auto|exfalso]. specialize (Hs N). refine (Ho [t; 0] _ (F t ltac:(lra)) (V t) _). split; [exact Hw|]. intros E. injection E as E _. lra.
    + intros (a & Ha & ->). split; [exists [a; 0]; split; [apply F; lra|apply V]|]. intros x v (a' & b' & -> & Ha' & _ & Hz) Ev Hd. unfold eq1_h in Hz. subst b'.
      rewrite V in Ev. injection Ev as <-. apply dom2_inv in Hd. destruct Hd as (D1 & D2 & D3). assert (a' = a) by nra. subst a'. lra.
  - intros x (a & b & -> & Ha & Hb & Hz). unfold eq1_h in Hz. subst b. eexists. split; [apply V|]. destruct (Far a) as (t & Ht & Hw & _). eexists. split; [exists t; split; [exact Ht|reflexivity]|exact Hw].
Qed.
Print Assumptions C185_eqcon.
Theorem C185_eqcon_set : forall B e x, 1 <= B -> In x eq1_set -> on_axis B x /\ exists u, eq1 e x = Some u /\ optimal (on_axis B) (eq1 e) u.
Proof.
  intros B e x HB Hx. unfold eq1_set in Hx. apply in_map_iff in Hx. destruct Hx as (j & <- & Hj). apply in_seq in Hj.
  pose proof (lin_in (-1) 1 500 j ltac:(lra) ltac:(lia)) as H. set (a := lin (-1) 1 500 j) in *. split; [exists a, 0; unfold eq1_h; split; [reflexivity|lra]|].
  exists [(a + 1) ^ 2 + 1; (a - 1) ^ 2 + e ^ 2]. split; [cbn [eq1]; do 2 f_equal; [ring|f_equal; ring]|]. apply (proj1 (C185_eqcon B e HB)). exists a. auto.
Qed.
Print Assumptions C185_eqcon_set.

(** a constraint that describes the front of the identity *)
Lemma below_front (g : R -> R -> R) phi : (forall a b, g a b = phi a - b) -> (forall a, 0 <= a <= 1 -> 0 <= phi a <= 1) -> (forall a b, 0 <= a -> a < b -> b <= 1 -> phi b < phi a) ->
  front (fun x => exists a b, x = [a; b] /\ 0 <= a <= 1 /\ 0 <= b <= 1 /\ g a b <= 0) same (graph unit_interval phi).
Proof.
  intros Hg Hr Hd. split.
  - intros u. split.
    + intros [(x & (a & b & -> & Ha & Hb & H) & Eu) Ho]. injection Eu as <-. rewrite Hg in H. exists a. split; [exact Ha|].
      destruct (Req_dec b (phi a)) as [->|N]; [reflexivity|exfalso]. refine (Ho [a; phi a] [a; phi a] _ eq_refl _).
      * exists a, (phi a). specialize (Hr a Ha). rewrite Hg. split; [reflexivity|lra].
      * apply dom2; lra.
    + intros (t & Ht & ->). unfold unit_interval in Ht. split.
      * exists [t; phi t]. split; [|reflexivity]. exists t, (phi t). specialize (Hr t Ht). rewrite Hg. split; [reflexivity|lra].
      * intros x v (a & b & -> & Ha & Hb & H) Ev D. injection Ev as <-. rewrite Hg in H. apply dom2_inv in D. destruct D as (D1 & D2 & D3).
        destruct (Rle_lt_or_eq_dec a t D1) as [L|E]; [specialize (Hd a t ltac:(lra) L ltac:(lra)); lra|subst a; lra].
  - intros x (a & b & -> & Ha & Hb & H). rewrite Hg in H. exists [a; b]. split; [reflexivity|]. exists [a; phi a]. split; [exists a; auto|]. constructor; [lra|constructor; [lra|constructor]].
Qed.
Theorem C185_concave : front (fun x => exists a b, x = [a; b] /\ 0 <= a <= 1 /\ 0 <= b <= 1 /\ concave_g a b <= 0) same (graph unit_interval (fun t => 1 - t ^ 2)).
Proof. apply below_front; intros; unfold concave_g; nra. Qed.
Print Assumptions C185_concave.
Theorem C185_convex : front (fun x => exists a b, x = [a; b] /\ 0 <= a <= 1 /\ 0 <= b <= 1 /\ convex_g a b <= 0) same (graph unit_interval (fun t => (1 - t) ^ 2)).
Proof. apply below_front; intros; unfold convex_g; nra. Qed.
Print Assumptions C185_convex.
Theorem C185_derivatives : forall a b a' b' e v v' J, eq1 e [a; b] = Some v -> eq1 e [a + a'; b + b'] = Some v' -> eq1_jac e [a; b] = Some J ->
  (forall i, (i < 2)%nat -> taylor (nth i v 0) (nth i v' 0) (nth i J []) [a'; b'] [[2; 0]; [0; 2]]) /\
  taylor (concave_g a b) (concave_g (a + a') (b + b')) (concave_g_jac a b) [a'; b'] concave_g_hess /\
  taylor (convex_g a b) (convex_g (a + a') (b + b')) (convex_g_jac a b) [a'; b'] convex_g_hess.
Proof.
  intros a b a' b' e v v' J Ev Ev' EJ. cbn [eq1 eq1_jac] in *. injection Ev as <-. injection Ev' as <-. injection EJ as <-.
  split; [intros [|[|i]] Hi; [| |lia]|split]; unfold taylor, quad, dot, concave_g, convex_g; simpl; lra.
Qed.
Print Assumptions C185_derivatives.
Example C185_example : on_axis 1.5 [0.5; 0] /\ In [-1; 0] eq1_set /\ concave_g 0.5 0.75 = 0 /\ convex_g 0.5 0.25 = 0.
Proof.
  split; [exists 0.5, 0; unfold eq1_h; split; [reflexivity|lra]|]. split; [|unfold concave_g, convex_g; lra].
  unfold eq1_set. apply in_map_iff. exists 0%nat. rewrite lin_first. split; [reflexivity|]. apply in_seq. lia.
Qed.
