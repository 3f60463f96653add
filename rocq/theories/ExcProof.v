(** Proofs about the problems of the example scripts. *)
From Coq Require Import List Arith Lia ZArith Reals Lra Psatz.
From Verif Require Import BenchSpec ExcSpec ExcModel.
Import ListNotations.
Open Scope R_scope.

Lemma dom3 a b c a' b' c' : a <= a' -> b <= b' -> c < c' -> dominates [a; b; c] [a'; b'; c'].
Proof. intros. split; [constructor; [lra|constructor; [lra|constructor; [lra|constructor]]]|]. intros E. injection E as _ _ E. lra. Qed.
Lemma dom3_inv a b c a' b' c' : dominates [a; b; c] [a'; b'; c'] -> a <= a' /\ b <= b' /\ c <= c'.
Proof. intros [H _]. inversion H as [|? ? ? ? H1 H']; subst. inversion H' as [|? ? ? ? H2 H'']; subst. inversion H''; subst. auto. Qed.
Lemma dom2_inv a b a' b' : dominates [a; b] [a'; b'] -> a <= a' /\ b <= b' /\ (a <> a' \/ b <> b').
Proof.
  intros [H N]. inversion H as [|? ? ? ? H1 H']; subst. inversion H' as [|? ? ? ? H2 H'']; subst. split; [auto|]. split; [auto|].
  destruct (Req_dec a a') as [->|]; [|auto]. destruct (Req_dec b b') as [->|]; [|auto]. exfalso. apply N. reflexivity.
Qed.
Lemma dom2 a b a' b' : a <= a' -> b <= b' -> a < a' \/ b < b' -> dominates [a; b] [a'; b'].
Proof. intros H1 H2 H3. split; [constructor; [lra|constructor; [lra|constructor]]|]. intros E. injection E as E1 E2. lra. Qed.

Lemma lin_in a b n j : a <= b -> (j < n)%nat -> a <= lin a b n j <= b.
Proof.
  intros Hab Hj. unfold lin. destruct (Nat.eqb_spec n 1) as [->|N]; [lra|].
  assert (P : 0 < INR (n - 1)) by (apply lt_0_INR; lia). assert (J : INR j <= INR (n - 1)) by (apply le_INR; lia). pose proof (pos_INR j).
  assert (Q : 0 <= (b - a) / INR (n - 1)) by (apply Rmult_le_pos; [lra|apply Rlt_le, Rinv_0_lt_compat; auto]).
  assert (E : b - a = INR (n - 1) * ((b - a) / INR (n - 1))) by (field; lra). set (q := (b - a) / INR (n - 1)) in *. nra.
Qed.
Lemma lin_first a b n : lin a b n 0 = a.
Proof. unfold lin. destruct (n =? 1)%nat; simpl; lra. Qed.
Lemma lin_last a b n : (2 <= n)%nat -> lin a b n (n - 1) = b.
Proof.
  intros Hn. unfold lin. destruct (Nat.eqb_spec n 1) as [E|N]; [lia|]. assert (0 < INR (n - 1)) by (apply lt_0_INR; lia). field. lra.
Qed.

(** ** the sphere *)
Lemma root3 : 0 < sqrt 3 /\ sqrt 3 * sqrt 3 = 3.
Proof. split; [apply sqrt_lt_R0; lra|apply sqrt_sqrt; lra]. Qed.
(** no point of the unit sphere around [m] is better for the centres than the one in the direction of [p] *)
Lemma sphere_key m1 m2 m3 p1 p2 p3 r a b d : 0 < r -> r * r = (p1 - m1) ^ 2 + (p2 - m2) ^ 2 + (p3 - m3) ^ 2 ->
  (a - m1) ^ 2 + (b - m2) ^ 2 + (d - m3) ^ 2 = 1 ->
  r <= (a - m1) * (p1 - m1) + (b - m2) * (p2 - m2) + (d - m3) * (p3 - m3) ->
  a = (p1 - m1) / r + m1 /\ b = (p2 - m2) / r + m2 /\ d = (p3 - m3) / r + m3.
Proof.
  intros Hr Er Es Hle.
  set (x := a - m1) in *. set (y := b - m2) in *. set (z := d - m3) in *. set (u := p1 - m1) in *. set (v := p2 - m2) in *. set (w := p3 - m3) in *.
  assert (S : (r * x - u) ^ 2 + (r * y - v) ^ 2 + (r * z - w) ^ 2 = 2 * (r * r) - 2 * r * (x * u + y * v + z * w)).
  { replace ((r * x - u) ^ 2 + (r * y - v) ^ 2 + (r * z - w) ^ 2) with (r * r * (x ^ 2 + y ^ 2 + z ^ 2) - 2 * r * (x * u + y * v + z * w) + (u ^ 2 + v ^ 2 + w ^ 2)) by ring.
    rewrite Es, <- Er. ring. }
  assert (T : (r * x - u) ^ 2 + (r * y - v) ^ 2 + (r * z - w) ^ 2 <= 0) by (rewrite S; nra).
  pose proof (pow2_ge_0 (r * x - u)). pose proof (pow2_ge_0 (r * y - v)). pose proof (pow2_ge_0 (r * z - w)).
  assert (Z : forall q, q ^ 2 <= 0 -> q = 0) by (intros q Hq; nra).
  assert (X : r * x - u = 0) by (apply Z; lra). assert (Y : r * y - v = 0) by (apply Z; lra). assert (W : r * z - w = 0) by (apply Z; lra).
  assert (Ex : x = u / r) by (replace u with (r * x) by lra; field; lra).
  assert (Ey : y = v / r) by (replace v with (r * y) by lra; field; lra).
  assert (Ez : z = w / r) by (replace w with (r * z) by lra; field; lra).
  unfold x, y, z in *. lra.
Qed.
(** the triangle of the centres of the first example *)
Definition tri1 (p : R * R) : Prop := -1 <= fst p <= 1 /\ - (fst p + 1) / 2 <= snd p <= (fst p + 1) / 2.
Lemma ex1_tri p : In p ex1_points -> tri1 p.
Proof.
  intros H. unfold ex1_points in H. apply in_flat_map in H. destruct H as (i & Hi & H). apply in_seq in Hi. apply in_map_iff in H. destruct H as (j & <- & Hj). apply in_seq in Hj.
  unfold tri1. cbn [fst snd]. pose proof (lin_in (-1) 1 14 i ltac:(lra) ltac:(lia)) as X. split; [auto|]. set (x := lin (-1) 1 14 i) in *.
  pose proof (lin_in (- (0.5) * x - 0.5) (0.5 * x + 0.5) (1 + 2 * i) j ltac:(lra) ltac:(lia)). lra.
Qed.
Lemma onto_opt p : tri1 p -> exists a b d, onto p = [a; b; d] /\ ex1_h a b d = 0 /\
  forall a' b' d' v u, ex1_h a' b' d' = 0 -> mop3 ex1 [a'; b'; d'] = Some v -> mop3 ex1 [a; b; d] = Some u -> dominates v u -> False.
Proof.
  destruct p as [x y]. intros [Hx Hy]. cbn [fst snd] in *. unfold onto, mid. cbn [fst snd]. set (m1 := 2 / sqrt 3 - 1).
  set (r := sqrt _). assert (Er : r * r = (x - m1) ^ 2 + (y - 0) ^ 2 + (0 - -1.5) ^ 2) by (apply sqrt_sqrt; pose proof (pow2_ge_0 (x - m1)); pose proof (pow2_ge_0 (y - 0)); lra).
  assert (Pr : 0 < r) by (apply sqrt_lt_R0; pose proof (pow2_ge_0 (x - m1)); pose proof (pow2_ge_0 (y - 0)); lra).
  exists ((x - m1) / r + m1), ((y - 0) / r + 0), ((0 - -1.5) / r + -1.5). split; [reflexivity|].
  assert (Hu : ((x - m1) / r + m1 - m1) ^ 2 + ((y - 0) / r + 0 - 0) ^ 2 + ((0 - -1.5) / r + -1.5 - -1.5) ^ 2 = 1).
  { replace (((x - m1) / r + m1 - m1) ^ 2 + ((y - 0) / r + 0 - 0) ^ 2 + ((0 - -1.5) / r + -1.5 - -1.5) ^ 2)
      with (((x - m1) ^ 2 + (y - 0) ^ 2 + (0 - -1.5) ^ 2) / (r * r)) by (field; lra). rewrite <- Er. field. lra. }
  split; [unfold ex1_h, mid, sq3; fold m1; lra|].
  intros a' b' d' v u Hh Ev Eu Hd. unfold ex1_h, mid, sq3 in Hh. fold m1 in Hh. assert (Hh' : (a' - m1) ^ 2 + (b' - 0) ^ 2 + (d' - -1.5) ^ 2 = 1) by lra. clear Hh. rename Hh' into Hh. cbn [mop3 ex1 k1 k2 k3 sq3] in Ev, Eu. injection Ev as <-. injection Eu as <-.
  assert (Hd' := Hd). apply dom3_inv in Hd'. destruct Hd' as (D1 & D2 & D3).
  set (a := (x - m1) / r + m1) in *. set (b := (y - 0) / r + 0) in *. set (d := (0 - -1.5) / r + -1.5) in *.
  assert (I : (a - m1) * (x - m1) + (b - 0) * (y - 0) + (d - -1.5) * (0 - -1.5) = r).
  { unfold a, b, d. replace (((x - m1) / r + m1 - m1) * (x - m1) + ((y - 0) / r + 0 - 0) * (y - 0) + ((0 - -1.5) / r + -1.5 - -1.5) * (0 - -1.5))
      with (((x - m1) ^ 2 + (y - 0) ^ 2 + (0 - -1.5) ^ 2) / r) by (field; lra). rewrite <- Er. field. lra. }
  (* weights of the three centres *)
  set (w1 := ((1 + x) / 2 + y) / 2). set (w2 := ((1 + x) / 2 - y) / 2). set (w3 := (1 - x) / 2).
  assert (W1 : 0 <= w1) by (unfold w1; lra). assert (W2 : 0 <= w2) by (unfold w2; lra). assert (W3 : 0 <= w3) by (unfold w3; lra).
  assert (M : w1 * ((a' - 1) ^ 2 + (b' - 1) ^ 2 + (d' - 0) ^ 2) + w2 * ((a' - 1) ^ 2 + (b' - -1) ^ 2 + (d' - 0) ^ 2) + w3 * ((a' - -1) ^ 2 + (b' - 0) ^ 2 + (d' - 0) ^ 2) <=
              w1 * ((a - 1) ^ 2 + (b - 1) ^ 2 + (d - 0) ^ 2) + w2 * ((a - 1) ^ 2 + (b - -1) ^ 2 + (d - 0) ^ 2) + w3 * ((a - -1) ^ 2 + (b - 0) ^ 2 + (d - 0) ^ 2)).
  { apply Rplus_le_compat; [apply Rplus_le_compat|]; apply Rmult_le_compat_l; auto. }
  assert (K : forall s t q, (s - m1) ^ 2 + (t - 0) ^ 2 + (q - -1.5) ^ 2 = 1 ->
    w1 * ((s - 1) ^ 2 + (t - 1) ^ 2 + (q - 0) ^ 2) + w2 * ((s - 1) ^ 2 + (t - -1) ^ 2 + (q - 0) ^ 2) + w3 * ((s - -1) ^ 2 + (t - 0) ^ 2 + (q - 0) ^ 2)
    = (m1 * m1 + 2.25 + 1 - 2 * m1 * x + 1 + (1 + x) / 2) - 2 * ((s - m1) * (x - m1) + (t - 0) * (y - 0) + (q - -1.5) * (0 - -1.5))).
  { intros s t q E. transitivity ((m1 * m1 + 2.25 + ((s - m1) ^ 2 + (t - 0) ^ 2 + (q - -1.5) ^ 2) - 2 * m1 * x + 1 + (1 + x) / 2) - 2 * ((s - m1) * (x - m1) + (t - 0) * (y - 0) + (q - -1.5) * (0 - -1.5))).
    - unfold w1, w2, w3. lra.
    - rewrite E. reflexivity. }
  rewrite (K a' b' d' Hh), (K a b d Hu), I in M.
  destruct (sphere_key m1 0 (-1.5) x y 0 r a' b' d' Pr Er Hh ltac:(lra)) as (-> & -> & ->).
  apply Hd. reflexivity.
Qed.

(** ** the plane *)
(** the weights of a point *)
Definition b1 (p : R * R) : R := (- 2 * fst p - snd p) / 3.
Definition b2 (p : R * R) : R := 1 + (5 * fst p + snd p) / 6.
Definition b3 (p : R * R) : R := (snd p - fst p) / 6.
Lemma tri2_weights p : tri2 p <-> 0 <= b1 p /\ 0 <= b2 p /\ 0 <= b3 p.
Proof.
  unfold tri2, b1, b2, b3. split.
  - intros (w1 & w2 & w3 & H1 & H2 & H3 & E & -> & ->). lra.
  - intros (H1 & H2 & H3). exists ((- 2 * fst p - snd p) / 3), (1 + (5 * fst p + snd p) / 6), ((snd p - fst p) / 6). repeat split; lra.
Qed.
(** points outside are improved by a step towards the triangle *)
Lemma outside p : ~ tri2 p -> exists q, forall v u, mop3 ex2 (flat0 q) = Some v -> mop3 ex2 (flat0 p) = Some u -> dominates v u.
Proof.
  intros H. rewrite tri2_weights in H. destruct p as [b c]. unfold b1, b2, b3 in H. cbn [fst snd] in H.
  assert (N : (- 2 * b - c) / 3 < 0 \/ 1 + (5 * b + c) / 6 < 0 \/ (c - b) / 6 < 0).
  { destruct (Rlt_dec ((- 2 * b - c) / 3) 0); [auto|]. destruct (Rlt_dec (1 + (5 * b + c) / 6) 0); [auto|]. destruct (Rlt_dec ((c - b) / 6) 0); [auto|]. exfalso. apply H. lra. }
  destruct N as [N|[N|N]].
  - set (w := (- 2 * b - c) / 3) in *. assert (E : c = - 2 * b - 3 * w) by (unfold w; lra). exists (b + 6 / 5 * w, c + 3 / 5 * w).
    intros v u Ev Eu. cbn [flat0 mop3 ex2 k1 k2 k3 fst snd] in *. injection Ev as <-. injection Eu as <-. unfold sq3. apply dom3; rewrite E; nra.
  - set (w := 1 + (5 * b + c) / 6) in *. assert (E : c = 6 * w - 6 - 5 * b) by (unfold w; lra). exists (b - 15 / 13 * w, c - 3 / 13 * w).
    intros v u Ev Eu. cbn [flat0 mop3 ex2 k1 k2 k3 fst snd] in *. injection Ev as <-. injection Eu as <-. unfold sq3. apply dom3; rewrite E; nra.
  - set (w := (c - b) / 6) in *. assert (E : c = b + 6 * w) by (unfold w; lra). exists (b + 3 * w, c - 3 * w).
    intros v u Ev Eu. cbn [flat0 mop3 ex2 k1 k2 k3 fst snd] in *. injection Ev as <-. injection Eu as <-. unfold sq3. apply dom3; rewrite E; nra.
Qed.
(** inside: nothing in the half space is better *)
Lemma inside_opt p a b c v u : tri2 p -> 0 <= a -> mop3 ex2 [a; b; c] = Some v -> mop3 ex2 (flat0 p) = Some u -> dominates v u -> False.
Proof.
  intros (w1 & w2 & w3 & H1 & H2 & H3 & E & E1 & E2) Ha Ev Eu Hd. destruct p as [x y]. cbn [fst snd] in *. cbn [flat0 mop3 ex2 k1 k2 k3 fst snd] in *.
  unfold sq3 in *. injection Ev as <-. injection Eu as <-. assert (Hd' := Hd). apply dom3_inv in Hd'. destruct Hd' as (D1 & D2 & D3).
  assert (M := Rplus_le_compat _ _ _ _ (Rplus_le_compat _ _ _ _ (Rmult_le_compat_l w1 _ _ H1 D1) (Rmult_le_compat_l w2 _ _ H2 D2)) (Rmult_le_compat_l w3 _ _ H3 D3)).
  assert (K : (b - x) ^ 2 + (c - y) ^ 2 + (a ^ 2 + 2 * a * (w1 + w2 + 2 * w3)) <= 0).
  { assert (I : w1 * ((a - -1) ^ 2 + (b - -1) ^ 2 + (c - -1) ^ 2) + w2 * ((a - -1) ^ 2 + (b - 0) ^ 2 + (c - 0) ^ 2) + w3 * ((a - -2) ^ 2 + (b - -2) ^ 2 + (c - 4) ^ 2)
      - (w1 * ((0 - -1) ^ 2 + (x - -1) ^ 2 + (y - -1) ^ 2) + w2 * ((0 - -1) ^ 2 + (x - 0) ^ 2 + (y - 0) ^ 2) + w3 * ((0 - -2) ^ 2 + (x - -2) ^ 2 + (y - 4) ^ 2))
      = (b - x) ^ 2 + (c - y) ^ 2 + (a ^ 2 + 2 * a * (w1 + w2 + 2 * w3))).
    { replace w2 with (1 - w1 - w3) by lra. replace x with (w1 * -1 + (1 - w1 - w3) * 0 + w3 * -2) by (rewrite E1; f_equal; f_equal; lra).
      replace y with (w1 * -1 + (1 - w1 - w3) * 0 + w3 * 4) by (rewrite E2; f_equal; f_equal; lra). ring. }
    lra. }
  pose proof (pow2_ge_0 (b - x)). pose proof (pow2_ge_0 (c - y)). assert (0 <= 2 * a * (w1 + w2 + 2 * w3)) by (apply Rmult_le_pos; lra). pose proof (pow2_ge_0 a).
  assert (Z : forall q, q ^ 2 <= 0 -> q = 0) by (intros q Hq; nra).
  assert (Z1 : b - x = 0) by (apply Z; lra). assert (Z2 : c - y = 0) by (apply Z; lra). assert (Z3 : a = 0) by (apply Z; lra).
  apply Hd. replace b with x by lra. replace c with y by lra. rewrite Z3. reflexivity.
Qed.
(** convex combinations of three centres are optimal without constraints *)
Lemma hull_opt C w1 w2 w3 a b c : 0 <= w1 -> 0 <= w2 -> 0 <= w3 -> w1 + w2 + w3 = 1 ->
  a = w1 * fst (fst (k1 C)) + w2 * fst (fst (k2 C)) + w3 * fst (fst (k3 C)) ->
  b = w1 * snd (fst (k1 C)) + w2 * snd (fst (k2 C)) + w3 * snd (fst (k3 C)) ->
  c = w1 * snd (k1 C) + w2 * snd (k2 C) + w3 * snd (k3 C) ->
  forall y v u, mop3 C y = Some v -> mop3 C [a; b; c] = Some u -> dominates v u -> False.
Proof.
  intros H1 H2 H3 E Ea Eb Ec y v u Ev Eu Hd. destruct C as [[[p1 p2] p3] [[q1 q2] q3] [[r1 r2] r3]]. cbn [k1 k2 k3 fst snd] in *.
  destruct y as [|a' [|b' [|c' [|]]]]; try discriminate Ev. cbn [mop3 k1 k2 k3] in *. unfold sq3 in *. injection Ev as <-. injection Eu as <-.
  assert (Hd' := Hd). apply dom3_inv in Hd'. destruct Hd' as (D1 & D2 & D3).
  assert (M := Rplus_le_compat _ _ _ _ (Rplus_le_compat _ _ _ _ (Rmult_le_compat_l w1 _ _ H1 D1) (Rmult_le_compat_l w2 _ _ H2 D2)) (Rmult_le_compat_l w3 _ _ H3 D3)).
  assert (I : w1 * ((a' - p1) ^ 2 + (b' - p2) ^ 2 + (c' - p3) ^ 2) + w2 * ((a' - q1) ^ 2 + (b' - q2) ^ 2 + (c' - q3) ^ 2) + w3 * ((a' - r1) ^ 2 + (b' - r2) ^ 2 + (c' - r3) ^ 2)
      - (w1 * ((a - p1) ^ 2 + (b - p2) ^ 2 + (c - p3) ^ 2) + w2 * ((a - q1) ^ 2 + (b - q2) ^ 2 + (c - q3) ^ 2) + w3 * ((a - r1) ^ 2 + (b - r2) ^ 2 + (c - r3) ^ 2))
      = (a' - a) ^ 2 + (b' - b) ^ 2 + (c' - c) ^ 2).
  { assert (W : w2 = 1 - w1 - w3) by lra. rewrite Ea, Eb, Ec, W. ring. }
  pose proof (pow2_ge_0 (a' - a)). pose proof (pow2_ge_0 (b' - b)). pose proof (pow2_ge_0 (c' - c)).
  assert (Z : forall q, q ^ 2 <= 0 -> q = 0) by (intros q Hq; nra).
  assert (Z1 : a' - a = 0) by (apply Z; lra). assert (Z2 : b' - b = 0) by (apply Z; lra). assert (Z3 : c' - c = 0) by (apply Z; lra).
  apply Hd. replace a' with a by lra. replace b' with b by lra. replace c' with c by lra. reflexivity.
Qed.
(** the ends of the sampled rows are outside *)
Lemma row_left i : (1 <= ex2_n (ex2_z i))%nat -> In (ex2_left (ex2_z i) - 0.01, ex2_z i) (ex2_row i) /\ ~ tri2 (ex2_left (ex2_z i) - 0.01, ex2_z i).
Proof.
  intros Hn. split.
  - unfold ex2_row. apply in_map_iff. exists 0%nat. rewrite lin_first. split; [reflexivity|]. apply in_seq. lia.
  - rewrite tri2_weights. intros (_ & H & _). unfold b2, ex2_left in H. cbn [fst snd] in H. lra.
Qed.
Lemma row_right i : (2 <= ex2_n (ex2_z i))%nat -> In (ex2_right (ex2_z i) + 0.01, ex2_z i) (ex2_row i) /\ ~ tri2 (ex2_right (ex2_z i) + 0.01, ex2_z i).
Proof.
  intros Hn. split.
  - unfold ex2_row. apply in_map_iff. exists (ex2_n (ex2_z i) - 1)%nat. rewrite lin_last by auto. split; [reflexivity|]. apply in_seq. lia.
  - rewrite tri2_weights. intros (H & _ & H3). unfold b1, b3, ex2_right in *. cbn [fst snd] in *. destruct (Rle_dec 0 (ex2_z i)); lra.
Qed.
Lemma ex2_bounds p : In p ex2_points -> -4 <= fst p <= 4 /\ -4 <= snd p <= 4.
Proof.
  unfold ex2_points. rewrite in_app_iff. intros [H|H].
  - destruct H as [<-|[<-|[<-|[]]]]; cbn [fst snd]; lra.
  - apply in_flat_map in H. destruct H as (i & Hi & H). apply in_seq in Hi. unfold ex2_row in H. apply in_map_iff in H. destruct H as (j & <- & Hj). apply in_seq in Hj. cbn [fst snd].
    assert (Z : -1.01 <= ex2_z i <= 3.99) by (unfold ex2_z; apply lin_in; [lra|lia]). set (z := ex2_z i) in *. split; [|lra].
    assert (B : ex2_left z - 0.01 <= ex2_right z + 0.01 /\ -4 <= ex2_left z - 0.01 /\ ex2_right z + 0.01 <= 4) by (unfold ex2_left, ex2_right; destruct (Rle_dec 0 z); lra).
    pose proof (lin_in (ex2_left z - 0.01) (ex2_right z + 0.01) (ex2_n z) j ltac:(lra) ltac:(lia)). lra.
Qed.
