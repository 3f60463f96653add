(** Reference directions, problem construction and the DTLZ identities. *)
From Coq Require Import List Arith Bool Reals ZArith Lia Lra Psatz.
From Verif Require Import Num Exn ListAux NewtonModel ProbModel ProbSpec.
Import ListNotations.
Open Scope R_scope.

(** * compositions *)
Lemma comp_prefix d : forall t pre, compositions d t pre = map (fun l => pre ++ l) (compositions d t []).
Proof.
  induction d as [|d IH]; intros t pre; simpl; auto.
  rewrite !flat_map_concat_map, concat_map, map_map. f_equal. apply map_ext. intros v. rewrite IH, (IH (t - v)%nat [v]), map_map.
  apply map_ext. intros l. rewrite <- app_assoc. auto.
Qed.
Definition nsum (l : list nat) : nat := fold_right Nat.add 0%nat l.
Lemma comp_in d : forall t l, In l (compositions d t []) <-> length l = S d /\ nsum l = t.
Proof.
  induction d as [|d IH]; intros t l.
  - simpl. split.
    + intros [<-|[]]. simpl. lia.
    + intros [H1 H2]. left. destruct l as [|a [|]]; simpl in *; try lia. f_equal. lia.
  - cbn [compositions]. rewrite in_flat_map. split.
    + intros (v & Hv & Hl). apply in_seq in Hv. rewrite comp_prefix in Hl. apply in_map_iff in Hl. destruct Hl as (r & <- & Hr). apply IH in Hr. simpl. lia.
    + intros [H1 H2]. destruct l as [|v r]; simpl in *; [lia|]. exists v. split; [apply in_seq; lia|]. rewrite comp_prefix. apply in_map_iff. exists r. split; auto. apply IH. lia.
Qed.
Lemma NoDup_flat_map {A B} (f : A -> list B) l : NoDup l -> (forall a, In a l -> NoDup (f a)) ->
  (forall a b x, In a l -> In b l -> In x (f a) -> In x (f b) -> a = b) -> NoDup (flat_map f l).
Proof.
  induction l as [|a l IH]; intros H1 H2 H3; simpl; [constructor|]. inversion H1; subst. apply NoDup_app_iff. split; [apply H2; simpl; auto|]. split.
  - apply IH; auto. intros; apply H2; simpl; auto. intros; eapply H3; simpl; eauto.
  - intros x Hx Hy. apply in_flat_map in Hy. destruct Hy as (b & Hb & Hxb). assert (a = b) by (eapply H3; simpl; eauto). subst. auto.
Qed.
Lemma NoDup_map_inj {A B} (f : A -> B) l : (forall a b, In a l -> In b l -> f a = f b -> a = b) -> NoDup l -> NoDup (map f l).
Proof.
  induction l as [|a l IH]; intros Hf H; simpl; [constructor|]. inversion H; subst. constructor.
  - intros Hin. apply in_map_iff in Hin. destruct Hin as (b & E & Hb). assert (b = a) by (apply Hf; simpl; auto). subst. auto.
  - apply IH; auto. intros; apply Hf; simpl; auto.
Qed.
Lemma comp_NoDup d : forall t, NoDup (compositions d t []).
Proof.
  induction d as [|d IH]; intros t; [simpl; constructor; [intros []|constructor]|].
  cbn [compositions]. apply NoDup_flat_map.
  - apply seq_NoDup.
  - intros v _. rewrite comp_prefix. apply NoDup_map_inj; auto. intros a b _ _ E. simpl in E. congruence.
  - intros v w x _ _ Hx Hy. rewrite comp_prefix in Hx, Hy. apply in_map_iff in Hx. apply in_map_iff in Hy. destruct Hx as (r & <- & _). destruct Hy as (r' & E & _). simpl in E. congruence.
Qed.
Lemma comb_n0 n : comb n 0 = 1%nat.
Proof. destruct n; auto. Qed.
Lemma comb_gt k : forall n, (n < k)%nat -> comb n k = 0%nat.
Proof. induction k as [|k IH]; intros n H; [lia|]. destruct n; simpl; auto. rewrite IH by lia. destruct n; [auto|]. assert (E : comb (S n) (S k) = 0%nat). { clear IH. revert k H. induction n as [|n IHn]; intros k H. - destruct k; [lia|]. simpl. destruct k; auto. - simpl comb at 1. destruct k; [lia|]. change (comb (S n) (S k) + comb (S n) (S (S k)) = 0)%nat. rewrite (IHn k), (IHn (S k)); lia. } rewrite E. auto. Qed.
Lemma comb_S n k : comb (S n) (S k) = (comb n k + comb n (S k))%nat.
Proof. reflexivity. Qed.
Lemma comb_nn n : comb n n = 1%nat.
Proof. induction n; auto. rewrite comb_S, IHn, comb_gt; lia. Qed.
Lemma flat_map_length {A B} (f : A -> list B) l : length (flat_map f l) = nsum (map (fun a => length (f a)) l).
Proof. induction l; simpl; auto. rewrite app_length. lia. Qed.
Lemma comp_length d : forall t, length (compositions d t []) = comb (t + d) d.
Proof.
  induction d as [|d IH]; intros t; [simpl; rewrite comb_n0; auto|].
  cbn [compositions]. rewrite flat_map_length.
  assert (E : forall s, map (fun a => length (compositions d (s - a) ([] ++ [a]))) (seq 0 (s + 1)) = map (fun a => comb (s - a + d) d) (seq 0 (s + 1))).
  { intros s. apply map_ext. intros a. rewrite comp_prefix, map_length. apply IH. }
  rewrite E. clear E IH. induction t as [|t IHt].
  - simpl. rewrite comb_nn. rewrite comb_gt by lia. lia.
  - replace (S t + 1)%nat with (S (t + 1)) by lia. cbn [seq map nsum fold_right]. rewrite <- seq_shift, map_map. 
    rewrite (map_ext (fun x => comb (S t - S x + d) d) (fun x => comb (t - x + d) d)) by (intros; auto). fold (nsum (map (fun x => comb (t - x + d) d) (seq 0 (t + 1)))). rewrite IHt.
    replace (S t + S d)%nat with (S (t + S d)) by lia. rewrite comb_S. f_equal. f_equal. lia.
Qed.
Lemma comb_C k : forall n, (k <= n)%nat -> INR (comb n k) = C n k.
Proof.
  induction k as [|k IH].
  - intros n _. rewrite comb_n0. unfold C. rewrite Nat.sub_0_r. simpl. field. apply INR_fact_neq_0.
  - intros n. induction n as [|n IHn]; intros H; [lia|]. rewrite comb_S, plus_INR.
    destruct (Nat.eq_dec n k) as [->|Hne].
    + rewrite comb_nn, comb_gt by lia. unfold C. rewrite Nat.sub_diag. simpl (INR (fact 0)). simpl (INR 0). simpl (INR 1). field. apply INR_fact_neq_0.
    + rewrite IH, IHn by lia. apply pascal. lia.
Qed.
Lemma comb_lower d p : (1 <= d)%nat -> (p + 1 <= comb (p + d) d)%nat.
Proof.
  intros Hd. destruct d as [|d]; [lia|]. induction p as [|p IH].
  - simpl (0 + S d)%nat. rewrite comb_nn. lia.
  - replace (S p + S d)%nat with (S (p + S d)) by lia. rewrite comb_S.
    assert (1 <= comb (p + S d) d)%nat; [|lia].
    clear IH. revert p. clear Hd. induction d as [|d IHd]; intros p; [rewrite comb_n0; lia|].
    replace (p + S (S d))%nat with (S (p + S d)) by lia. rewrite comb_S. specialize (IHd p). lia.
Qed.
Lemma partitions_ok m target : forall fuel p, (target < fuel + p)%nat -> (0 < fuel)%nat -> (1 <= m)%nat ->
  exists q, partitions fuel (S m) target p = Ok q /\ (p <= q)%nat /\ (target <= comb (q + m) m)%nat /\ forall r, (p <= r < q)%nat -> (comb (r + m) m < target)%nat.
Proof.
  induction fuel as [|fuel IH]; intros p H Hf Hm; [lia|]. cbn [partitions]. destruct (Nat.ltb_spec (comb (p + m) m) target) as [Hlt|Hge].
  - pose proof (comb_lower m p Hm). destruct (IH (p + 1)%nat ltac:(lia) ltac:(lia) Hm) as (q & E & H1 & H2 & H3). exists q. split; auto. split; [lia|]. split; auto.
    intros r Hr. destruct (Nat.eq_dec r p) as [->|]; auto. apply H3. lia.
  - exists p. split; auto. split; auto. split; auto. intros r Hr. lia.
Qed.
(** with one objective the loop does not end *)
Lemma partitions_diverges target : (1 < target)%nat -> forall fuel p, partitions fuel 1 target p = Exn OutOfFuel.
Proof. intros H. induction fuel as [|fuel IH]; intros p; auto. cbn [partitions]. rewrite comb_n0. destruct (Nat.ltb_spec 1 target); [|lia]. apply IH. Qed.

Lemma lattice_dirs d p : (1 <= p)%nat -> let D := map (map (fun v => INR v / INR p)) (compositions d p []) in
  NoDup D /\ length D = comb (p + d) d /\ (forall y, In y D <-> lattice (S d) p y).
Proof.
  intros Hp D. assert (Hp' : INR p <> 0) by (apply not_0_INR; lia). split; [|split].
  - apply NoDup_map_inj; [|apply comp_NoDup]. intros a b _ _ E. revert b E. induction a as [|x a IH]; intros [|y b] E; simpl in E; try discriminate; auto.
    injection E as E1 E2. f_equal; [|apply IH; auto]. apply INR_eq. apply (Rmult_eq_reg_r (/ INR p)); auto. apply Rinv_neq_0_compat; auto.
  - unfold D. rewrite map_length. apply comp_length.
  - intros y. unfold D. rewrite in_map_iff. unfold lattice. split; intros (k & H1 & H2).
    + apply comp_in in H2. exists k. destruct H2. split; auto.
    + exists k. destruct H2 as [H2 ->]. split; auto. apply comp_in. auto.
Qed.
Lemma lattice_facts m p y : (1 <= p)%nat -> lattice m p y -> length y = m /\ Forall (fun a => 0 <= a) y /\ total y = 1.
Proof.
  intros Hp (k & H1 & H2 & ->). assert (Hp' : 0 < INR p) by (apply lt_0_INR; lia). split; [rewrite map_length; auto|]. split.
  - apply Forall_forall. intros a Ha. apply in_map_iff in Ha. destruct Ha as (v & <- & _). apply Rmult_le_pos; [apply pos_INR|left; apply Rinv_0_lt_compat; auto].
  - assert (E : forall l, total (map (fun v => INR v / INR p) l) = INR (nsum l) / INR p).
    { induction l as [|a l IH]; simpl; [unfold Rdiv; lra|]. fold (total (map (fun v => INR v / INR p) l)). rewrite IH. fold (nsum l). rewrite plus_INR. field. lra. }
    rewrite E. unfold nsum. rewrite H2. field. lra.
Qed.

(** * DTLZ *)
Fixpoint Q (c : R) (x1 x2 : list R) : list R :=
  match x1, x2 with a :: t1, b :: t2 => (c * b) :: Q (c * a) t1 t2 | _, _ => [c] end.
Lemma vmul_app a a' b b' : length a = length a' -> vmul (a ++ b) (a' ++ b') = vmul a a' ++ vmul b b'.
Proof. revert a'. induction a as [|x a IH]; intros [|y a'] H; simpl in *; try lia; auto. f_equal. apply IH. lia. Qed.
Lemma vmul_rev a : forall b, length a = length b -> vmul (rev a) (rev b) = rev (vmul a b).
Proof. induction a as [|x a IH]; intros [|y b] H; simpl in *; try lia; auto. rewrite vmul_app by (rewrite !rev_length; lia). rewrite IH by lia. auto. Qed.
Lemma cumprod_length c l : length (cumprod c l) = length l.
Proof. revert c. induction l; intros; simpl; auto. Qed.
Lemma cumprod_Q : forall x1 x2 c, length x1 = length x2 -> vmul (c :: cumprod c x1) (x2 ++ [1]) = Q c x1 x2.
Proof. induction x1 as [|a x1 IH]; intros [|b x2] c H; simpl in *; try lia; [f_equal; ring|]. f_equal. apply IH. lia. Qed.
Lemma position_Q x1 x2 : length x1 = length x2 -> position x1 x2 = rev (Q 1 x1 x2).
Proof.
  intros H. unfold position. cbn [cumprod]. rewrite Rmult_1_l. rewrite <- (rev_involutive (1 :: rev x2)). cbn [rev]. rewrite rev_involutive.
  change (rev (cumprod 1 x1) ++ [1]) with (rev (1 :: cumprod 1 x1)). rewrite vmul_rev by (simpl; rewrite cumprod_length, app_length; simpl; lia). f_equal. apply cumprod_Q. auto.
Qed.
Lemma Q_length : forall x1 x2 c, length x1 = length x2 -> length (Q c x1 x2) = S (length x1).
Proof. induction x1 as [|a x1 IH]; intros [|b x2] c H; simpl in *; try lia. rewrite IH; lia. Qed.
Lemma total_app a b : total (a ++ b) = total a + total b.
Proof. induction a; simpl; [unfold total; simpl; ring|]. unfold total in *. rewrite IHa. ring. Qed.
Lemma total_rev l : total (rev l) = total l.
Proof. induction l; simpl; auto. rewrite total_app, IHl. unfold total. simpl. ring. Qed.
Lemma sqnorm_app a b : sqnorm (a ++ b) = sqnorm a + sqnorm b.
Proof. induction a; simpl; [unfold sqnorm; simpl; ring|]. unfold sqnorm in *. rewrite IHa. ring. Qed.
Lemma sqnorm_rev l : sqnorm (rev l) = sqnorm l.
Proof. induction l; simpl; auto. rewrite sqnorm_app, IHl. unfold sqnorm. simpl. ring. Qed.
Lemma total_scale c l : total (map (fun a => c * a) l) = c * total l.
Proof. unfold total. induction l; simpl; [ring|]. rewrite IHl. ring. Qed.
Lemma sqnorm_scale c l : sqnorm (map (fun a => c * a) l) = c * c * sqnorm l.
Proof. unfold sqnorm. induction l; simpl; [ring|]. rewrite IHl. ring. Qed.
Lemma Q_total : forall x1 x2 c, Forall2 (fun a b => a + b = 1) x1 x2 -> total (Q c x1 x2) = c.
Proof.
  intros x1 x2 c H. revert c. induction H as [|a b x1 x2 Hab H IH]; intros c; [unfold total; simpl; ring|].
  cbn [Q]. unfold total in *. cbn [fold_right]. rewrite IH. replace b with (1 - a) by lra. ring.
Qed.
Lemma Q_sqnorm : forall x1 x2 c, Forall2 (fun a b => a * a + b * b = 1) x1 x2 -> sqnorm (Q c x1 x2) = c * c.
Proof.
  intros x1 x2 c H. revert c. induction H as [|a b x1 x2 Hab H IH]; intros c; [unfold sqnorm; simpl; ring|].
  cbn [Q]. unfold sqnorm in *. cbn [fold_right]. rewrite IH. replace (b * b) with (1 - a * a) by lra. replace (c * b * (c * b)) with (c * c * (b * b)) by ring. replace (b * b) with (1 - a * a) by lra. ring.
Qed.
Lemma Q_nonneg : forall x1 x2 c, 0 <= c -> Forall2 (fun a b => 0 <= a /\ 0 <= b) x1 x2 -> Forall (fun a => 0 <= a) (Q c x1 x2).
Proof.
  intros x1 x2 c Hc H. revert c Hc. induction H as [|a b x1 x2 [Ha Hb] H IH]; intros c Hc; cbn [Q]; constructor; auto.
  - apply Rmult_le_pos; auto.
  - apply IH. apply Rmult_le_pos; auto.
Qed.

Lemma Forall2_map_same {A B C} (P : B -> C -> Prop) (f : A -> B) (g : A -> C) l : (forall a, In a l -> P (f a) (g a)) -> Forall2 P (map f l) (map g l).
Proof. induction l; intros H; simpl; constructor; auto. apply H; simpl; auto. apply IHl. intros; apply H; simpl; auto. Qed.
Lemma simplex_pairs xp g : Forall2 (fun a b => a + b = 1) (fst (tr_simplex xp g)) (snd (tr_simplex xp g)).
Proof. unfold tr_simplex. cbn [fst snd]. rewrite <- (map_id xp) at 1. apply Forall2_map_same. intros; ring. Qed.
Lemma angle_pairs al xp g : Forall2 (fun a b => a * a + b * b = 1) (fst (tr_angle al xp g)) (snd (tr_angle al xp g)).
Proof. unfold tr_angle. cbn [fst snd]. apply Forall2_map_same. intros a _. pose proof (sin2_cos2 (a ^ al * PI / 2)) as H. unfold Rsqr in H. lra. Qed.
Lemma degen_pairs xp g : Forall2 (fun a b => a * a + b * b = 1) (fst (tr_degenerate xp g)) (snd (tr_degenerate xp g)).
Proof. unfold tr_degenerate. cbn [fst snd]. apply Forall2_map_same. intros a _. pose proof (sin2_cos2 (a * PI / 2)) as H. unfold Rsqr in H. lra. Qed.

Lemma Forall2_len {A B} (P : A -> B -> Prop) l l' : Forall2 P l l' -> length l = length l'.
Proof. induction 1; simpl; auto. Qed.
Lemma dtlz_total sc m g tr x : Forall2 (fun a b => a + b = 1) (fst (tr (firstn (m - 1) x) (g (skipn (m - 1) x)))) (snd (tr (firstn (m - 1) x) (g (skipn (m - 1) x)))) ->
  total (dtlz_obj sc m g tr x) = sc * (1 + g (skipn (m - 1) x)).
Proof.
  intros H. unfold dtlz_obj. rewrite total_scale, position_Q, total_rev, Q_total by (auto; eapply Forall2_len; eauto). ring.
Qed.
Lemma dtlz_sqnorm sc m g tr x : Forall2 (fun a b => a * a + b * b = 1) (fst (tr (firstn (m - 1) x) (g (skipn (m - 1) x)))) (snd (tr (firstn (m - 1) x) (g (skipn (m - 1) x)))) ->
  sqnorm (dtlz_obj sc m g tr x) = (sc * (1 + g (skipn (m - 1) x))) * (sc * (1 + g (skipn (m - 1) x))).
Proof.
  intros H. unfold dtlz_obj. rewrite sqnorm_scale, position_Q, sqnorm_rev, Q_sqnorm by (auto; eapply Forall2_len; eauto). ring.
Qed.
Lemma dtlz_length sc m g tr x : (forall xp gv, length (fst (tr xp gv)) = length xp /\ length (snd (tr xp gv)) = length xp) ->
  length (dtlz_obj sc m g tr x) = S (Nat.min (m - 1) (length x)).
Proof. intros H. unfold dtlz_obj. destruct (H (firstn (m - 1) x) (g (skipn (m - 1) x))) as [H1 H2]. rewrite map_length, position_Q, rev_length, Q_length by lia. rewrite H1, firstn_length. auto. Qed.
Lemma angle_len al xp g : length (fst (tr_angle al xp g)) = length xp /\ length (snd (tr_angle al xp g)) = length xp.
Proof. unfold tr_angle; cbn [fst snd]. rewrite !map_length. auto. Qed.
Lemma simplex_len xp g : length (fst (tr_simplex xp g)) = length xp /\ length (snd (tr_simplex xp g)) = length xp.
Proof. unfold tr_simplex; cbn [fst snd]. rewrite map_length. auto. Qed.
Lemma degen_len xp g : length (fst (tr_degenerate xp g)) = length xp /\ length (snd (tr_degenerate xp g)) = length xp.
Proof. unfold tr_degenerate; cbn [fst snd]. rewrite !map_length. destruct xp; simpl; rewrite ?map_length; auto. Qed.

(** ** the distance functions *)
Lemma sumf_nonneg f l : (forall a, 0 <= f a) -> 0 <= sumf f l.
Proof. intros H. unfold sumf. induction l; simpl; [lra|]. specialize (H a). lra. Qed.
Lemma sumf_zero f l : (forall a, 0 <= f a) -> (sumf f l = 0 <-> forall a, In a l -> f a = 0).
Proof.
  intros H. unfold sumf. induction l as [|x l IH]; simpl; [split; auto; intros _ a []|].
  pose proof (sumf_nonneg f l H) as Hn. unfold sumf in Hn. split.
  - intros E a [<-|Ha]; pose proof (H x); [lra|]. apply IH; auto. lra.
  - intros E. rewrite (E x) by auto. rewrite (proj2 IH) by auto. ring.
Qed.
Lemma g_sphere_nonneg l : 0 <= g_sphere l.
Proof. apply sumf_nonneg. intros a. apply pow2_ge_0. Qed.
Lemma g_sphere_zero l : g_sphere l = 0 <-> forall a, In a l -> a = / 2.
Proof.
  unfold g_sphere. rewrite sumf_zero by (intros; apply pow2_ge_0). split; intros H a Ha; specialize (H a Ha).
  - assert (a - / 2 = 0); [|lra]. destruct (Req_dec (a - / 2) 0) as [|Hn]; auto. exfalso. apply (pow_nonzero _ 2 Hn). auto.
  - subst. simpl. ring.
Qed.
Definition rast (a : R) : R := (a - / 2) ^ 2 - cos (20 * PI * (a - / 2)) + 1.
Lemma rast_nonneg a : 0 <= rast a.
Proof. unfold rast. pose proof (pow2_ge_0 (a - / 2)). pose proof (COS_bound (20 * PI * (a - / 2))). lra. Qed.
Lemma g_rast l : g_rastrigin (Z.of_nat (length l)) l = 100 * sumf rast l.
Proof.
  unfold g_rastrigin. f_equal. rewrite <- INR_IZR_INZ. induction l as [|a l IH]; [simpl; unfold sumf; simpl; ring|].
  cbn [length]. rewrite S_INR. unfold sumf in *. cbn [fold_right]. rewrite <- IH. unfold rast. ring.
Qed.
Lemma g_rast_nonneg l : 0 <= g_rastrigin (Z.of_nat (length l)) l.
Proof. rewrite g_rast. pose proof (sumf_nonneg rast l rast_nonneg). lra. Qed.
Lemma g_rast_zero l : g_rastrigin (Z.of_nat (length l)) l = 0 <-> forall a, In a l -> a = / 2.
Proof.
  rewrite g_rast. assert (E : 100 * sumf rast l = 0 <-> sumf rast l = 0) by lra. rewrite E, sumf_zero by apply rast_nonneg.
  split; intros H a Ha; specialize (H a Ha).
  - unfold rast in H. pose proof (COS_bound (20 * PI * (a - / 2))). pose proof (pow2_ge_0 (a - / 2)).
    destruct (Req_dec (a - / 2) 0) as [|Hn]; [lra|]. exfalso. apply (pow_nonzero _ 2 Hn). lra.
  - subst. unfold rast. replace (/ 2 - / 2) with 0 by lra. rewrite Rmult_0_r, cos_0. simpl. ring.
Qed.
Lemma k_len n m (x : list R) : length x = n -> (m <= n + 1)%nat -> (1 <= m)%nat -> k_of n m = Z.of_nat (length (skipn (m - 1) x)).
Proof. intros H1 H2 H3. unfold k_of. rewrite skipn_length. lia. Qed.

(** ** attained points *)
Lemma Q_simplex : forall y c, y <> [] -> Forall (fun a => 0 <= a) y -> total y = c ->
  exists x1, Forall (fun a => 0 <= a <= 1) x1 /\ S (length x1) = length y /\ Q c x1 (map (fun a => 1 - a) x1) = y.
Proof.
  induction y as [|y0 y IH]; intros c Hy Hpos Ht; [congruence|]. inversion Hpos as [|? ? H0 Hr]; subst. destruct y as [|y1 y].
  - exists []. split; auto. split; auto. unfold total. simpl. f_equal. ring.
  - set (s := total (y1 :: y)). destruct (IH s ltac:(congruence) Hr eq_refl) as (x1 & H1 & H2 & H3).
    assert (Hs : 0 <= s). { unfold s. clear - Hr. induction Hr; [unfold total; simpl; lra|]. unfold total in *. simpl. lra. }
    assert (Et : total (y0 :: y1 :: y) = y0 + s) by reflexivity. rewrite Et.
    destruct (Req_dec (y0 + s) 0) as [E0|Hn].
    + assert (y0 = 0) by lra. assert (Es : s = 0) by lra. exists (0 :: x1). split; [constructor; auto; lra|]. split; [simpl in *; lia|]. cbn [map Q]. rewrite E0. replace (0 * (1 - 0)) with y0 by lra. replace (0 * 0) with s by lra. rewrite H3. auto.
    + exists (s / (y0 + s) :: x1). split.
      * constructor; auto. assert (0 < y0 + s) by lra. split; [apply Rmult_le_pos; auto; left; apply Rinv_0_lt_compat; auto|]. apply (Rmult_le_reg_r (y0 + s)); auto. unfold Rdiv. rewrite Rmult_assoc, Rinv_l, Rmult_1_r by auto. lra.
      * split; [simpl in *; lia|]. cbn [map Q]. replace ((y0 + s) * (1 - s / (y0 + s))) with y0 by (field; auto). replace ((y0 + s) * (s / (y0 + s))) with s by (field; auto). rewrite H3. auto.
Qed.
Lemma root_exists n v : (1 <= n)%nat -> 0 <= v <= 1 -> exists u, 0 <= u <= 1 /\ u ^ n = v.
Proof.
  intros Hn [H0 H1]. destruct (Req_dec v 0) as [->|Hv]; [exists 0; split; [lra|]; apply pow_i; lia|].
  assert (Hp : 0 < v) by lra. assert (Hi : 0 < INR n) by (apply lt_0_INR; lia). exists (Rpower v (/ INR n)). split.
  - split; [left; apply exp_pos|]. replace 1 with (Rpower v 0) by (apply Rpower_O; auto). unfold Rpower.
    destruct (Req_dec v 1) as [->|Hv1]; [rewrite ln_1, !Rmult_0_r; lra|].
    assert (ln v < 0) by (rewrite <- ln_1; apply ln_increasing; lra). rewrite Rmult_0_l. left. apply exp_increasing.
    pose proof (Rinv_0_lt_compat _ Hi). assert (0 < / INR n * - ln v) by (apply Rmult_lt_0_compat; lra). lra.
  - rewrite <- Rpower_pow by apply exp_pos. rewrite Rpower_mult. rewrite Rinv_l by lra. apply Rpower_1. auto.
Qed.
Lemma angle_exists y c : 0 <= y -> 0 < c -> y <= c -> exists v, 0 <= v <= 1 /\ c * sin (v * PI / 2) = y /\ c * cos (v * PI / 2) = sqrt (c * c - y * y).
Proof.
  intros Hy Hc Hyc. pose proof PI_RGT_0 as HP. set (t := asin (y / c)).
  assert (Hr : 0 <= y / c <= 1). { split; [apply Rmult_le_pos; auto; left; apply Rinv_0_lt_compat; auto|]. apply (Rmult_le_reg_r c); auto. unfold Rdiv. rewrite Rmult_assoc, Rinv_l, Rmult_1_r by lra. lra. }
  assert (Hb : - (PI / 2) <= t <= PI / 2) by apply asin_bound.
  assert (Hs : sin t = y / c) by (apply sin_asin; lra).
  assert (Ht : 0 <= t). { destruct (Rle_dec 0 t); auto. exfalso. assert (sin t < 0); [|lra]. apply sin_lt_0_var; lra. }
  exists (2 * t / PI). assert (E : 2 * t / PI * PI / 2 = t) by (field; lra). split; [split|].
  - apply Rmult_le_pos; [lra|left; apply Rinv_0_lt_compat; auto].
  - apply (Rmult_le_reg_r PI); auto. unfold Rdiv. rewrite Rmult_assoc, Rinv_l, Rmult_1_r by lra. lra.
  - rewrite E. split; [rewrite Hs; field; lra|]. assert (Hct : 0 <= cos t) by (apply cos_ge_0; lra).
    replace (c * c - y * y) with ((c * cos t) * (c * cos t)).
    + rewrite sqrt_square; auto. apply Rmult_le_pos; lra.
    + pose proof (sin2_cos2 t) as H. unfold Rsqr in H. rewrite Hs in H. replace (c * cos t * (c * cos t)) with (c * c * (cos t * cos t)) by ring. replace (cos t * cos t) with (1 - y / c * (y / c)) by lra. field. lra.
Qed.
Lemma Q_sphere al : (1 <= al)%nat -> forall y c, y <> [] -> Forall (fun a => 0 <= a) y -> 0 <= c -> sqnorm y = c * c ->
  exists x, Forall (fun a => 0 <= a <= 1) x /\ S (length x) = length y /\ Q c (map (fun a => cos (a ^ al * PI / 2)) x) (map (fun a => sin (a ^ al * PI / 2)) x) = y.
Proof.
  intros Hal. induction y as [|y0 y IH]; intros c Hy Hpos Hc Ht; [congruence|]. inversion Hpos as [|? ? H0 Hr]; subst. destruct y as [|y1 y].
  - exists []. split; auto. split; auto. simpl. f_equal. unfold sqnorm in Ht. simpl in Ht. apply Rsqr_inj; auto. unfold Rsqr. lra.
  - set (s := sqnorm (y1 :: y)). assert (Et : sqnorm (y0 :: y1 :: y) = y0 * y0 + s) by reflexivity. rewrite Et in Ht.
    assert (Hs : 0 <= s). { unfold s. clear. induction (y1 :: y) as [|a l IH]; [unfold sqnorm; simpl; lra|]. unfold sqnorm in *. simpl. pose proof (Rle_0_sqr a) as H. unfold Rsqr in H. lra. }
    destruct (IH (sqrt s) ltac:(congruence) Hr (sqrt_pos _) ltac:(rewrite sqrt_sqrt; auto)) as (x & H1 & H2 & H3).
    destruct (Req_dec c 0) as [->|Hcn].
    + pose proof (Rle_0_sqr y0) as Hsq. unfold Rsqr in Hsq. assert (Es : s = 0) by lra. assert (y0 = 0) by (apply Rsqr_0_uniq; unfold Rsqr; lra).
      exists (0 :: x). split; [constructor; auto; lra|]. split; [simpl in *; lia|]. cbn [map Q]. rewrite !Rmult_0_l. rewrite Es, sqrt_0 in H3. rewrite H3. subst y0. auto.
    + assert (Hyc : y0 <= c). { apply Rsqr_incr_0; auto. unfold Rsqr. lra. }
      destruct (angle_exists y0 c H0 ltac:(lra) Hyc) as (v & Hv & E1 & E2). destruct (root_exists al v Hal Hv) as (u & Hu & Eu).
      exists (u :: x). split; [constructor; auto|]. split; [simpl in *; lia|]. cbn [map Q]. rewrite Eu, E1, E2. replace (c * c - y0 * y0) with s by lra. rewrite H3. auto.
Qed.

(** * dominance and sums *)
Lemma leqv_total a b : leqv a b -> total a <= total b /\ (total a = total b -> a = b).
Proof.
  intros H. induction H as [|x y a b Hxy H [IH1 IH2]]; [unfold total; simpl; split; auto; lra|]. unfold total in *. simpl. split; [lra|].
  intros E. assert (x = y) by lra. subst. f_equal. apply IH2. lra.
Qed.
Lemma dominates_total a b : dominates a b -> total a < total b.
Proof. intros [H Hn]. destruct (leqv_total a b H) as [H1 H2]. destruct (Rle_lt_or_eq_dec _ _ H1); auto. exfalso. auto. Qed.
Lemma leqv_sqnorm a b : Forall (fun x => 0 <= x) a -> leqv a b -> sqnorm a <= sqnorm b /\ (sqnorm a = sqnorm b -> a = b).
Proof.
  intros Hp H. induction H as [|x y a b Hxy H IH]; [unfold sqnorm; simpl; split; auto; lra|]. inversion Hp as [|? ? Hx Ha]; subst. destruct (IH Ha) as [IH1 IH2]. unfold sqnorm in *. simpl.
  assert (x * x <= y * y) by (apply Rmult_le_compat; auto). split; [lra|]. intros E. assert (x = y). { apply Rsqr_inj; try lra. unfold Rsqr. lra. } subst. f_equal. apply IH2. lra.
Qed.
Lemma dominates_sqnorm a b : Forall (fun x => 0 <= x) a -> dominates a b -> sqnorm a < sqnorm b.
Proof. intros Hp [H Hn]. destruct (leqv_sqnorm a b Hp H) as [H1 H2]. destruct (Rle_lt_or_eq_dec _ _ H1); auto. exfalso. auto. Qed.
Lemma sphere_row r : (exists a, In a r /\ a <> 0) -> let s := map (fun a => a / norm2 r) r in sqnorm s = 1.
Proof.
  intros (a & Ha & Hn) s. set (q := fold_right (fun a s => a * a + s) 0 r).
  assert (Hq : 0 < q). { unfold q. clear - Ha Hn. induction r as [|b r IH]; [destruct Ha|]. simpl. pose proof (Rle_0_sqr b) as Hb. unfold Rsqr in Hb.
    assert (0 <= fold_right (fun a s => a * a + s) 0 r). { clear. induction r; simpl; [lra|]. pose proof (Rle_0_sqr a) as H. unfold Rsqr in H. lra. }
    destruct Ha as [<-|Ha]; [assert (0 < b * b) by (apply Rsqr_pos_lt; auto); lra|specialize (IH Ha); lra]. }
  assert (Hs : norm2 r * norm2 r = q) by (apply sqrt_sqrt; lra). assert (Hn0 : norm2 r <> 0) by (unfold norm2; apply Rgt_not_eq, sqrt_lt_R0; auto).
  unfold s. rewrite (map_ext (fun a => a / norm2 r) (fun a => / norm2 r * a)) by (intros; unfold Rdiv; ring). rewrite sqnorm_scale. change (sqnorm r) with q. rewrite <- Hs. field. auto.
Qed.
