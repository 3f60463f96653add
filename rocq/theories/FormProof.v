(** The modelled benchmark functions are the published ones. *)
From Coq Require Import List Arith Bool Reals ZArith Lia Lra Psatz Sorted.
From Verif Require Import Num Exn ListAux NewtonModel ProbModel ProbProof BenchModel BenchSpec BenchBase FormSpec.
Import ListNotations.
Open Scope R_scope.

(** * index sets *)
Lemma sorted_ext : forall a b : list nat, StronglySorted lt a -> StronglySorted lt b -> (forall i, In i a <-> In i b) -> a = b.
Proof.
  induction a as [|u a IH]; intros b Ha Hb H.
  - destruct b as [|v b]; auto. exfalso. apply (proj2 (H v)). left; auto.
  - destruct b as [|v b]; [exfalso; apply (proj1 (H u)); left; auto|]. inversion Ha as [|? ? Sa Fa]; subst. inversion Hb as [|? ? Sb Fb]; subst. rewrite Forall_forall in Fa, Fb.
    assert (u = v). { destruct (proj1 (H u) (or_introl eq_refl)) as [E|E]; auto. destruct (proj2 (H v) (or_introl eq_refl)) as [E'|E']; auto. specialize (Fa _ E'). specialize (Fb _ E). lia. }
    subst v. f_equal. apply IH; auto. intros i. split; intros Hi.
    + destruct (proj1 (H i) (or_intror Hi)) as [E|E]; auto. subst. specialize (Fa _ Hi). lia.
    + destruct (proj2 (H i) (or_intror Hi)) as [E|E]; auto. subst. specialize (Fb _ Hi). lia.
Qed.
Lemma sorted_seq a n : StronglySorted lt (seq a n).
Proof. revert a. induction n as [|n IH]; intros a; simpl; constructor; auto. apply Forall_forall. intros i Hi. apply in_seq in Hi. lia. Qed.
Lemma sorted_filter p l : StronglySorted lt l -> StronglySorted lt (filter p l).
Proof.
  induction 1 as [|a l S IH F]; simpl; [constructor|]. destruct (p a); auto. constructor; auto. rewrite Forall_forall in F |- *. intros i Hi. apply filter_In in Hi. apply F, Hi.
Qed.
Lemma sorted_map f l : (forall i j, In i l -> In j l -> (i < j)%nat -> (f i < f j)%nat) -> StronglySorted lt l -> StronglySorted lt (map f l).
Proof.
  intros H S. induction S as [|a l S IH F]; simpl; constructor.
  - apply IH. intros i j Hi Hj. apply H; right; auto.
  - rewrite Forall_forall in F |- *. intros i Hi. apply in_map_iff in Hi. destruct Hi as (j & <- & Hj). apply H; [left|right|]; auto.
Qed.
Lemma sorted_arange a b s : (0 < s)%nat -> StronglySorted lt (arange a b s).
Proof. intros Hs. unfold arange. apply sorted_map; [|apply sorted_seq]. intros; nia. Qed.
Definition pre (j : nat) : nat := (j - 1)%nat.
Ltac index_sets := apply sorted_ext; [try (apply sorted_map; [intros ? ? Hi Hj; rewrite ?arange_in in Hi, Hj by lia; destruct Hi as (? & ? & ?), Hj as (? & ? & ?); lia|]); apply sorted_arange; lia
  |apply sorted_map; [intros ? ? Hi Hj; apply filter_In in Hi, Hj; rewrite in_seq in Hi, Hj; unfold pre; lia|apply sorted_filter, sorted_seq]|].
Lemma odd_set n : uf_odd n = map pre (Odd n).
Proof.
  unfold uf_odd, Odd. index_sets. intros i. rewrite arange_in, in_map_iff by lia. split.
  - intros (k & -> & H). exists (S (2 + k * 2))%nat. split; [unfold pre; lia|]. apply filter_In. rewrite in_seq. split; [lia|]. apply Nat.odd_spec. exists (S k). lia.
  - intros (j & <- & Hj). apply filter_In in Hj. destruct Hj as [Hj Ho]. apply in_seq in Hj. apply Nat.odd_spec in Ho. destruct Ho as (k & ->). exists (k - 1)%nat. unfold pre. lia.
Qed.
Lemma even_set n : uf_even n = map pre (Even n).
Proof.
  unfold uf_even, Even. index_sets. intros i. rewrite arange_in, in_map_iff by lia. split.
  - intros (k & -> & H). exists (S (1 + k * 2))%nat. split; [unfold pre; lia|]. apply filter_In. rewrite in_seq. split; [lia|]. apply Nat.even_spec. exists (S k). lia.
  - intros (j & <- & Hj). apply filter_In in Hj. destruct Hj as [Hj Ho]. apply in_seq in Hj. apply Nat.even_spec in Ho. destruct Ho as (k & ->). exists (k - 1)%nat. unfold pre. lia.
Qed.
Lemma mod3_set n a r : (a = 2 \/ a = 3 \/ a = 4)%nat -> r = ((a + 1) mod 3)%nat -> arange a n 3 = map pre (Mod3 n r).
Proof.
  intros Ha Hr. unfold Mod3. index_sets. intros i. rewrite arange_in, in_map_iff by lia. split.
  - intros (k & -> & H). exists (S (a + k * 3))%nat. split; [unfold pre; lia|]. apply filter_In. rewrite in_seq. split; [lia|]. apply Nat.eqb_eq. subst r. replace (S (a + k * 3)) with (a + 1 + k * 3)%nat by lia. apply Nat.mod_add. lia.
  - intros (j & <- & Hj). apply filter_In in Hj. destruct Hj as [Hj Ho]. apply in_seq in Hj. apply Nat.eqb_eq in Ho. pose proof (Nat.div_mod j 3 ltac:(lia)) as Hd. exists ((j - (a + 1)) / 3)%nat. unfold pre. split; [|lia].
    assert (Hq : (j = a + 1 + ((j - (a + 1)) / 3) * 3)%nat); [|lia].
    assert (Hle : (a + 1 <= j)%nat). { destruct Ha as [-> | [-> | ->]]; simpl in Hr; lia. }
    assert (Hz : ((j - (a + 1)) mod 3 = 0)%nat).
    { destruct Ha as [-> | [-> | ->]]; simpl in Hr; subst r; rewrite Ho in Hd; set (q := (j / 3)%nat) in *.
      - replace (j - (2 + 1))%nat with (0 + (q - 1) * 3)%nat by lia. rewrite Nat.mod_add; auto.
      - replace (j - (3 + 1))%nat with (0 + (q - 1) * 3)%nat by lia. rewrite Nat.mod_add; auto.
      - replace (j - (4 + 1))%nat with (0 + (q - 1) * 3)%nat by lia. rewrite Nat.mod_add; auto. }
    pose proof (Nat.div_mod (j - (a + 1)) 3 ltac:(lia)). lia.
Qed.
Lemma cf_odd_set n : Nat.even n = true -> cf_J1 n = map pre (Odd n).
Proof.
  intros He. apply Nat.even_spec in He. destruct He as (h & ->). unfold cf_J1, Odd. index_sets. intros i. rewrite !in_map_iff. split.
  - intros (j & <- & H). apply arange_in in H; [|lia]. destruct H as (k & -> & H). exists (3 + k * 2)%nat. split; auto. apply filter_In. rewrite in_seq. split; [lia|]. apply Nat.odd_spec. exists (S k). lia.
  - intros (j & <- & Hj). apply filter_In in Hj. destruct Hj as [Hj Ho]. apply in_seq in Hj. apply Nat.odd_spec in Ho. destruct Ho as (k & ->). eexists. split; [reflexivity|]. apply arange_in; [lia|]. exists (k - 1)%nat. lia.
Qed.
Lemma cf_even_set n : Nat.even n = true -> cf_J2 n = map pre (Even n).
Proof.
  intros He. apply Nat.even_spec in He. destruct He as (h & ->). unfold cf_J2, Even. index_sets. intros i. rewrite !in_map_iff. split.
  - intros (j & <- & H). apply arange_in in H; [|lia]. destruct H as (k & -> & H). exists (2 + k * 2)%nat. split; auto. apply filter_In. rewrite in_seq. split; [lia|]. apply Nat.even_spec. exists (S k). lia.
  - intros (j & <- & Hj). apply filter_In in Hj. destruct Hj as [Hj Ho]. apply in_seq in Hj. apply Nat.even_spec in Ho. destruct Ho as (k & ->). eexists. split; [reflexivity|]. apply arange_in; [lia|]. exists (k - 1)%nat. lia.
Qed.
Lemma odd_in n j : In j (Odd n) -> (3 <= j <= n)%nat.
Proof. intros H. apply filter_In in H. destruct H as [H Ho]. apply in_seq in H. destruct (Nat.eq_dec j 2) as [->|]; [discriminate|lia]. Qed.
Lemma even_in n j : In j (Even n) -> (2 <= j <= n)%nat.
Proof. intros H. apply filter_In in H. destruct H as [H Ho]. apply in_seq in H. lia. Qed.
Lemma mod3_in n r j : In j (Mod3 n r) -> (3 <= j <= n)%nat.
Proof. intros H. apply filter_In in H. destruct H as [H Ho]. apply in_seq in H. lia. Qed.
Lemma odd_ne n : (3 <= n)%nat -> Odd n <> [].
Proof. intros H E. assert (In 3%nat (Odd n)) by (apply filter_In; rewrite in_seq; split; [lia|reflexivity]). rewrite E in H0. destruct H0. Qed.
Lemma even_ne n : (2 <= n)%nat -> Even n <> [].
Proof. intros H E. assert (In 2%nat (Even n)) by (apply filter_In; rewrite in_seq; split; [lia|reflexivity]). rewrite E in H0. destruct H0. Qed.
Lemma mod3_ne n r : (5 <= n)%nat -> (r < 3)%nat -> Mod3 n r <> [].
Proof.
  intros H Hr E. assert (Hi : In (if (r =? 0)%nat then 3%nat else if (r =? 1)%nat then 4%nat else 5%nat) (Mod3 n r)). { apply filter_In. rewrite in_seq. destruct r as [|[|[|]]]; [| | |lia]; cbn; split; auto; lia. }
  rewrite E in Hi. destruct Hi.
Qed.

(** * reading entries *)
Lemma take_pre tgt x J : (forall j, In j J -> (1 <= j <= length x)%nat) -> take (minus_at tgt x) (map pre J) = Some (map (fun j => X x j - tgt (pre j)) J).
Proof.
  intros H. rewrite take_minus. - rewrite map_map. reflexivity. - intros i Hi. apply in_map_iff in Hi. destruct Hi as (j & <- & Hj). specialize (H j Hj). unfold pre. lia.
Qed.
Lemma mean2_set (f : R -> R) (g : nat -> R) J : J <> [] -> mean2 (map f (map g J)) = Some (Avg2 J (fun j => f (g j))).
Proof.
  intros H. unfold mean2, mean. rewrite map_map. destruct J as [|j J]; [congruence|]. cbn [map]. f_equal. unfold Avg2, Sum, vsum. cbn [map length]. rewrite map_length. unfold Rdiv. ring.
Qed.
Lemma mean2_set1 (g : nat -> R) J : J <> [] -> mean2 (map g J) = Some (Avg2 J g).
Proof. intros H. pose proof (mean2_set (fun a => a) g J H) as E. rewrite map_id in E. exact E. Qed.
Lemma sum_ext J f g : (forall j, In j J -> f j = g j) -> Sum J f = Sum J g.
Proof. intros H. unfold Sum. f_equal. apply map_ext_in. auto. Qed.
Lemma prod_ext J f g : (forall j, In j J -> f j = g j) -> Prod J f = Prod J g.
Proof. intros H. unfold Prod. f_equal. apply map_ext_in. auto. Qed.
Lemma avg_ext J f g : (forall j, In j J -> f j = g j) -> Avg2 J f = Avg2 J g.
Proof. intros H. unfold Avg2. f_equal. apply sum_ext. auto. Qed.
Lemma combine_map_l {A B} (f : A -> B) (l : list A) (g : A -> R) : combine (map f l) (map g l) = map (fun a => (f a, g a)) l.
Proof. induction l; simpl; auto. f_equal. auto. Qed.
Lemma penalty_set (y : nat -> R) J : J <> [] -> (forall j, In j J -> (1 <= j)%nat) -> cos_penalty (map pre J) (map y J) = Some (Rugged J y).
Proof.
  intros H H1. unfold cos_penalty. assert (E : map pre J <> []) by (destruct J; [congruence|discriminate]). destruct (map pre J) eqn:Ep; [congruence|]. rewrite <- Ep in *. f_equal. unfold Rugged. rewrite map_length, map_map. f_equal. f_equal. f_equal; [|f_equal].
  - unfold vsum, Sum. f_equal. f_equal. apply map_ext. intros; unfold sq; ring.
  - unfold vprod, Prod. f_equal. rewrite combine_map_l, map_map. apply map_ext_in. intros j Hj. cbn [fst snd]. specialize (H1 j Hj). unfold pre. replace (j - 1 + 1)%nat with j by lia. f_equal. unfold Rdiv. ring.
Qed.
Lemma first_read x : (1 <= length x)%nat -> nth_error x 0 = Some (X x 1).
Proof. intros H. destruct x; [simpl in H; lia|]. reflexivity. Qed.
Lemma second_read x : (2 <= length x)%nat -> nth_error x 1 = Some (X x 2).
Proof. intros H. destruct x as [|a [|b x]]; simpl in H; try lia; reflexivity. Qed.
Lemma pre_succ j : (1 <= j)%nat -> (pre j + 1)%nat = j.
Proof. unfold pre. lia. Qed.

(** * UF *)
Ltac read_all := rewrite ?take_pre by (intros ? Hj; first [apply odd_in in Hj|apply even_in in Hj|apply mod3_in in Hj]; lia); cbv beta iota.
Section UF.
Variables (n : nat) (x : list R).
Hypothesis L : length x = n.
Ltac same2 := f_equal; f_equal; [|f_equal]; (f_equal; try apply avg_ext; try reflexivity).
Lemma pair_eq (a b c d : R) : a = c -> b = d -> Some [a; b] = Some [c; d].
Proof using. intros -> ->. auto. Qed.
Ltac plus := apply (f_equal2 Rplus); [try reflexivity; try (unfold sq; ring)|].
Ltac at_index := let j := fresh "j" in let Hj := fresh "Hj" in intros j Hj; first [apply odd_in in Hj|apply even_in in Hj|apply mod3_in in Hj].
Ltac ne := first [apply odd_ne|apply even_ne|apply mod3_ne]; lia.
Lemma uf1_ok : (3 <= n)%nat -> uf1 n x = Some (UF1 n x).
Proof using L.
  intros Hn. unfold uf1. rewrite first_read by lia. cbv zeta. rewrite odd_set, even_set. read_all. rewrite !mean2_set by ne. unfold UF1. same2;
    at_index; unfold sq, sine; rewrite pre_succ by lia; ring.
Qed.
Lemma uf2_ok : (3 <= n)%nat -> uf2 n x = Some (UF2 n x).
Proof using L.
  intros Hn. unfold uf2. rewrite first_read by lia. cbv zeta. rewrite odd_set, even_set. read_all. rewrite !mean2_set by ne. unfold UF2. same2;
    at_index; unfold sq, uf2_tgt; rewrite pre_succ by lia; unfold sq; ring.
Qed.
Lemma pw_power a e : e <> 0 -> pw a e = power a e.
Proof using. intros He. unfold pw, power, reqb. destruct (Req_EM_T a 0); auto. destruct (Req_EM_T e 0); [contradiction|auto]. Qed.
Lemma power_same j : (3 <= n)%nat -> (2 <= j <= n)%nat -> power_tgt n (X x 1) (pre j) = power (X x 1) (0.5 * (1 + 3 * (INR j - 2) / (INR n - 2))).
Proof using. clear L.
  intros Hn Hj. unfold power_tgt. rewrite pre_succ by lia. apply pw_power.
  assert (3 <= INR n) by (apply (le_INR 3) in Hn; simpl in Hn; lra). assert (2 <= INR j) by (destruct Hj as [Hj _]; apply (le_INR 2) in Hj; simpl in Hj; lra).
  assert (0 <= 3 * (INR j - 2) / (INR n - 2)). { apply Rmult_le_pos; [lra|]. left. apply Rinv_0_lt_compat. lra. } lra.
Qed.
Lemma rugged_ext J f g : (forall j, In j J -> f j = g j) -> Rugged J f = Rugged J g.
Proof using. intros H. unfold Rugged. rewrite (sum_ext J (fun j => f j ^ 2) (fun j => g j ^ 2)) by (intros j Hj; rewrite (H j Hj); auto). rewrite (prod_ext J _ (fun j => cos (20 * g j * PI / sqrt (INR j)))) by (intros j Hj; rewrite (H j Hj); auto). auto. Qed.
Ltac pos_index := at_index; lia.
Lemma uf3_ok : (3 <= n)%nat -> uf3 n x = Some (UF3 n x).
Proof using L.
  intros Hn. unfold uf3. rewrite first_read by lia. cbv zeta. rewrite odd_set, even_set. read_all. rewrite !penalty_set by (first [ne|pos_index]). cbv beta iota. unfold UF3. apply pair_eq; plus; apply rugged_ext; at_index; rewrite power_same by lia; auto.
Qed.
Lemma uf4_ok : (3 <= n)%nat -> uf4 n x = Some (UF4 n x).
Proof using L.
  intros Hn. unfold uf4. rewrite first_read by lia. cbv zeta. rewrite !take_map, odd_set, even_set. read_all. rewrite !mean2_set by ne. unfold UF4. cbv beta iota zeta. apply pair_eq; plus; apply avg_ext;
    at_index; unfold sine; rewrite pre_succ by lia; reflexivity.
Qed.
Lemma uf5_ok : (3 <= n)%nat -> uf5 n x = Some (UF5 n x).
Proof using L.
  intros Hn. unfold uf5. rewrite first_read by lia. cbv zeta. rewrite !take_map, odd_set, even_set. read_all. rewrite !mean2_set by ne. unfold UF5. cbv beta iota zeta.
  assert (Ec : 0.15 * Rabs (sin (20 * PI * X x 1)) = (1 / (2 * 10) + 0.1) * Rabs (sin (2 * 10 * PI * X x 1))) by (replace (2 * 10) with 20 by ring; f_equal; lra).
  rewrite Ec. apply pair_eq; plus; apply avg_ext; at_index; unfold wave, sq, sine; rewrite pre_succ by lia; (f_equal; f_equal; ring).
Qed.
Lemma uf6_ok : (3 <= n)%nat -> uf6 n x = Some (UF6 n x).
Proof using L.
  intros Hn. unfold uf6. rewrite first_read by lia. cbv zeta. rewrite odd_set, even_set. read_all. rewrite !penalty_set by (first [ne|pos_index]). cbv beta iota. unfold UF6. cbv zeta.
  assert (Ec : 0.7 * sin (4 * PI * X x 1) = 2 * (1 / (2 * 2) + 0.1) * sin (2 * 2 * PI * X x 1)) by (replace (2 * 2) with 4 by ring; f_equal; lra).
  rewrite Ec. apply pair_eq; plus; apply rugged_ext; at_index; unfold sine; rewrite pre_succ by lia; auto.
Qed.
Lemma uf7_ok : (3 <= n)%nat -> uf7 n x = Some (UF7 n x).
Proof using L.
  intros Hn. unfold uf7. rewrite first_read by lia. cbv zeta. rewrite odd_set, even_set. read_all. rewrite !mean2_set by ne. unfold UF7. cbv zeta. rewrite (pw_power (X x 1) 0.2) by lra. replace 0.2 with (1 / 5) by lra. same2;
    at_index; unfold sq, sine; rewrite pre_succ by lia; ring.
Qed.
Lemma penalties_ok (f : R -> R) : (5 <= n)%nat ->
  let y j := X x j - 2 * X x 2 * sin (2 * PI * X x 1 + INR j * PI / INR n) in
  penalties3 n f (minus_at (sine3 n (X x 1) (X x 2)) x) = Some (Avg2 (Mod3 n 1) (fun j => f (y j)), Avg2 (Mod3 n 2) (fun j => f (y j)), Avg2 (Mod3 n 0) (fun j => f (y j))).
Proof using L.
  intros Hn y. unfold penalties3, uf_groups. rewrite (mod3_set n 3 1), (mod3_set n 4 2), (mod3_set n 2 0) by (auto; reflexivity). read_all. rewrite !mean2_set by ne. cbv beta iota.
  f_equal. f_equal; [f_equal|]; apply avg_ext; at_index; unfold sine3, y; rewrite pre_succ by lia; auto.
Qed.
Lemma half_pi a : 0.5 * PI * a = a * PI / 2.
Proof using. unfold Rdiv. replace (/ 2) with 0.5 by lra. ring. Qed.
Lemma uf8_ok : (5 <= n)%nat -> uf8 n x = Some (UF8 n x).
Proof using L.
  intros Hn. unfold uf8, sphere3. rewrite first_read, second_read by lia. rewrite penalties_ok by auto. cbv beta iota zeta. rewrite !half_pi. unfold UF8. f_equal. f_equal; [|f_equal; [|f_equal]]; f_equal; apply avg_ext; intros; unfold sq; ring.
Qed.
Lemma uf9_ok : (5 <= n)%nat -> uf9 n x = Some (UF9 n x).
Proof using L.
  intros Hn. unfold uf9. rewrite first_read, second_read by lia. rewrite penalties_ok by auto. cbv beta iota zeta. unfold UF9. cbv zeta.
  assert (Ec : 1.1 * (1 - 4 * sq (2 * X x 1 - 1)) = (1 + 0.1) * (1 - 4 * (2 * X x 1 - 1) ^ 2)) by (unfold sq; lra). rewrite Ec.
  f_equal. f_equal; [|f_equal; [|f_equal]]; f_equal; apply avg_ext; intros; unfold sq; ring.
Qed.
Lemma uf10_ok : (5 <= n)%nat -> uf10 n x = Some (UF10 n x).
Proof using L.
  intros Hn. unfold uf10, sphere3. rewrite first_read, second_read by lia. rewrite penalties_ok by auto. cbv beta iota zeta. rewrite !half_pi. unfold UF10. f_equal. f_equal; [|f_equal; [|f_equal]]; f_equal; apply avg_ext; intros; unfold wave3, sq; f_equal; f_equal; ring.
Qed.

(** * CF, even number of variables *)
Hypothesis He : Nat.even n = true.
Ltac cf_start := rewrite first_read by lia; cbv zeta; rewrite ?(cf_odd_set n He), ?(cf_even_set n He); read_all.
Lemma cf1_ok : (4 <= n)%nat -> in_box n 0 0 1 0 1 x -> cf1 n x = Some (CF1 n x).
Proof using L He.
  intros Hn Hb. unfold cf1. rewrite (clip_box n 0 0 1 0 1 x) by (auto; lia). cf_start. rewrite !mean2_set by ne. cbv beta iota. unfold CF1. cbv zeta.
  apply pair_eq; plus; apply avg_ext; at_index; rewrite power_same by lia; unfold sq; ring.
Qed.
Lemma cf2_ok : (4 <= n)%nat -> in_box n 1 0 1 (-1) 1 x -> cf2 n x = Some (CF2 n x).
Proof using L He.
  intros Hn Hb. unfold cf2. rewrite (clip_box n 1 0 1 (-1) 1 x) by (auto; lia). cf_start. rewrite !mean2_set by ne. cbv beta iota. unfold CF2. 
  apply pair_eq; plus; apply avg_ext; at_index; unfold sine, cosine, sq; rewrite pre_succ by lia; ring.
Qed.
Lemma cf3_ok : (4 <= n)%nat -> in_box n 1 0 1 (-2) 2 x -> cf3 n x = Some (CF3 n x).
Proof using L He.
  intros Hn Hb. unfold cf3. rewrite (clip_box n 1 0 1 (-2) 2 x) by (auto; lia). cf_start. rewrite !penalty_set by (first [ne|pos_index]). cbv beta iota. unfold CF3. cbv zeta.
  apply pair_eq; plus; apply rugged_ext; at_index; unfold sine; rewrite pre_succ by lia; auto.
Qed.
Lemma cf6_ok : (4 <= n)%nat -> cf6 n x = Some (CF6 n x).
Proof using L He.
  intros Hn. unfold cf6. cf_start. unfold CF6. rewrite !map_map. apply pair_eq; plus; unfold vsum, Sum; f_equal; apply map_ext_in; at_index; unfold cf5_tgt, sq; rewrite pre_succ by lia; ring.
Qed.
Lemma even_cons : (2 <= n)%nat -> Even n = 2%nat :: filter Nat.even (seq 3 (n - 2)).
Proof using. clear. intros H. unfold Even. replace (n - 1)%nat with (S (n - 2)) by lia. reflexivity. Qed.
Lemma even_cons2 : (4 <= n)%nat -> Even n = 2%nat :: 4%nat :: filter Nat.even (seq 5 (n - 4)).
Proof using. clear. intros H. unfold Even. replace (n - 1)%nat with (S (S (S (n - 4)))) by lia. reflexivity. Qed.
Lemma bent_level : threshold = 3 / 2 * (1 - sqrt 2 / 2).
Proof using.
  clear. unfold threshold. f_equal. f_equal. replace (1 / 2) with (2 * (/ 2 * / 2)) by lra. rewrite sqrt_mult by lra. rewrite sqrt_square by lra. reflexivity.
Qed.
Lemma bent_same a : (if rltb a threshold then Rabs a else 0.125 + sq (a - 1)) = Bent a.
Proof using. clear. unfold Bent, rltb. rewrite bent_level. destruct (Rlt_dec _ _); auto. unfold sq. ring. Qed.
Lemma sum_cons j J (f : nat -> R) : Sum (j :: J) f = f j + Sum J f.
Proof using. clear. reflexivity. Qed.
Lemma vsum_sum J (f : nat -> R) : vsum (map f J) = Sum J f.
Proof using. clear. reflexivity. Qed.
Lemma cf5_ok : (4 <= n)%nat -> cf5 n x = Some (CF5 n x).
Proof using L He.
  intros Hn. unfold cf5. cf_start. unfold CF5. cbv zeta. rewrite even_cons by lia. cbn [map]. rewrite bent_same, !map_map, !vsum_sum, sum_cons. apply pair_eq.
  - plus. apply sum_ext. at_index. unfold cf5_tgt, wave, sq. rewrite pre_succ by lia. f_equal. f_equal. ring.
  - rewrite Rplus_assoc. plus. rewrite Rplus_comm. apply (f_equal2 Rplus); [reflexivity|]. apply sum_ext. intros j Hj. apply filter_In in Hj. rewrite in_seq in Hj. destruct (Nat.eqb_spec j 2); [lia|]. unfold cf5_tgt, wave, sq. rewrite pre_succ by lia. f_equal. f_equal. ring.
Qed.
Lemma cf7_ok : (4 <= n)%nat -> cf7 n x = Some (CF7 n x).
Proof using L He.
  intros Hn. unfold cf7. cf_start. unfold CF7. cbv zeta. rewrite even_cons2 by lia. cbn [map skipn firstn]. rewrite !map_map, !vsum_sum, !sum_cons. apply pair_eq.
  - plus. apply sum_ext. at_index. unfold cosine, wave, sq. rewrite pre_succ by lia. f_equal. f_equal. ring.
  - rewrite Rplus_assoc. plus. rewrite Rplus_comm. unfold vsum. cbn [fold_right orb Nat.eqb]. rewrite Rplus_0_r, Rplus_assoc. unfold sine, sq. cbn [pre Nat.sub Nat.add].
    plus. plus. apply sum_ext. intros j Hj. apply filter_In in Hj. rewrite in_seq in Hj. destruct (Nat.eqb_spec j 2); [lia|]. destruct (Nat.eqb_spec j 4); [lia|]. cbn [orb]. unfold sine, wave, sq. rewrite pre_succ by lia. f_equal. f_equal. ring.
Qed.
Lemma take_cf4 tgt J : (forall j, In j J -> (1 <= j <= length x)%nat) ->
  take (cf4_h (minus_at tgt x)) (map pre J) = Some (map (fun j => let y := X x j - tgt (pre j) in if (j =? 2)%nat then if rltb y threshold then Rabs y else 0.125 else sq y) J).
Proof using.
  clear. intros H. rewrite (take_some 0).
  - f_equal. rewrite map_map. apply map_ext_in. intros j Hj. specialize (H j Hj). unfold cf4_h.
    assert (Hl : (pre j < length (minus_at tgt x))%nat) by (rewrite minus_at_length; unfold pre; lia).
    set (F := fun iy : nat * R => if (fst iy =? 1)%nat then if rltb (snd iy) threshold then Rabs (snd iy) else 0.125 else sq (snd iy)).
    rewrite (nth_indep _ 0 (F (0%nat, 0))) by (rewrite map_length, enum_length; auto). rewrite (map_nth F). unfold F. clear F.
    rewrite enum_nth by auto. cbn [fst snd]. rewrite minus_at_nth by (unfold pre; lia). cbv zeta. unfold X, pre. destruct (Nat.eqb_spec j 2), (Nat.eqb_spec (j - 1) 1); try lia; auto.
  - intros i Hi. apply in_map_iff in Hi. destruct Hi as (j & <- & Hj). specialize (H j Hj). unfold cf4_h. rewrite map_length, enum_length, minus_at_length. unfold pre. lia.
Qed.
(** the second term is constant instead of bent beyond the threshold *)
Lemma cf4_is : (4 <= n)%nat -> in_box n 1 0 1 (-2) 2 x -> let y2 := X x 2 - sin (6 * PI * X x 1 + 2 * PI / INR n) in
  cf4 n x = Some [nth 0 (CF4 n x) 0; nth 1 (CF4 n x) 0 - if Rlt_dec y2 (3 / 2 * (1 - sqrt 2 / 2)) then 0 else (y2 - 1) ^ 2].
Proof using L He.
  intros Hn Hb y2. unfold cf4. rewrite (clip_box n 1 0 1 (-2) 2 x) by (auto; lia). rewrite first_read by lia. cbv zeta. rewrite (cf_odd_set n He), (cf_even_set n He).
  rewrite !take_cf4 by (intros ? Hj; first [apply odd_in in Hj|apply even_in in Hj]; lia). cbv beta iota. unfold CF4. cbv zeta. cbn [nth]. rewrite !vsum_sum. apply pair_eq.
  - plus. apply sum_ext. intros j Hj. assert (Hj' := odd_in _ _ Hj). destruct (Nat.eqb_spec j 2); [lia|]. unfold sine, sq. rewrite pre_succ by lia. ring.
  - assert (Ea : forall u v w : R, u + v - w = u + (v - w)) by (intros; ring). rewrite Ea. plus. rewrite even_cons by lia. rewrite !sum_cons. cbn [Nat.eqb].
    assert (E : Sum (filter Nat.even (seq 3 (n - 2))) (fun j => let y := X x j - sine n (X x 1) (pre j) in if (j =? 2)%nat then if rltb y threshold then Rabs y else 0.125 else sq y)
       = Sum (filter Nat.even (seq 3 (n - 2))) (fun j => if (j =? 2)%nat then Bent (X x j - sin (6 * PI * X x 1 + INR j * PI / INR n)) else (X x j - sin (6 * PI * X x 1 + INR j * PI / INR n)) ^ 2)).
    { apply sum_ext. intros j Hj. apply filter_In in Hj. rewrite in_seq in Hj. destruct (Nat.eqb_spec j 2); [lia|]. unfold sine, sq. rewrite pre_succ by lia. ring. }
    cbv zeta in E. rewrite E. match goal with |- context [Sum ?J ?f - _] => set (rest := Sum J f) | |- context [_ + Sum ?J ?f] => set (rest := Sum J f) end. assert (Ey : X x 2 - sine n (X x 1) (pre 2) = y2) by reflexivity. rewrite Ey. change (X x 2 - sin (6 * PI * X x 1 + INR 2 * PI / INR n)) with y2. rewrite bent_level. unfold rltb.
    unfold Bent. destruct (Rlt_dec y2 (3 / 2 * (1 - sqrt 2 / 2))); ring.
Qed.
End UF.

(** * CF8, CF9, CF10 *)
Lemma cf8_ok n x : (5 <= n)%nat -> in_box n 2 0 1 (-4) 4 x -> cf8 n x = Some (UF8 n x).
Proof. intros Hn Hb. unfold cf8. rewrite (clip_box n 2 0 1 (-4) 4 x) by (auto; lia). apply uf8_ok; auto. apply Hb. Qed.
Lemma cf9_ok n x : (5 <= n)%nat -> in_box n 2 0 1 (-2) 2 x -> cf9 n x = Some (UF8 n x).
Proof. intros Hn Hb. unfold cf9. rewrite (clip_box n 2 0 1 (-2) 2 x) by (auto; lia). apply uf8_ok; auto. apply Hb. Qed.
Lemma cf10_ok n x : (5 <= n)%nat -> length x = n -> cf10 n x = Some (UF10 n x).
Proof. intros Hn L. exact (uf10_ok n x L Hn). Qed.

(** * constraints: the code has [... <= 0] *)
Lemma cf1c_ok f : cf1_con f = - CF1c f.
Proof. unfold cf1_con, CF1c. cbv zeta. ring. Qed.
Lemma squash_ok t : squash t = - Squash t.
Proof. unfold squash, Squash, Rdiv. ring. Qed.
Lemma cf2c_ok f : cf2_con f = - CF2c f.
Proof. unfold cf2_con, CF2c. cbv zeta. rewrite squash_ok. f_equal. f_equal. ring. Qed.
Lemma cf3c_ok f : cf3_con f = - CF3c f.
Proof. unfold cf3_con, CF3c. cbv zeta. unfold sq. replace (nth 0 f 0 * nth 0 f 0) with (nth 0 f 0 ^ 2) by ring. ring. Qed.
Lemma cf4c_ok n x : (2 <= length x)%nat -> cf4_con n x = Some (- CF4c n x).
Proof. intros H. unfold cf4_con. rewrite first_read, second_read by lia. rewrite squash_ok. reflexivity. Qed.
Lemma cf5c_ok n x : (2 <= length x)%nat -> cf5_con n x = Some (- CF5c n x).
Proof. intros H. unfold cf5_con. rewrite first_read, second_read by lia. f_equal. unfold CF5c. ring. Qed.
Lemma sroot_ok a : sroot a = SignRoot a.
Proof.
  unfold sroot, sign, SignRoot, rltb. destruct (Rlt_dec 0 a), (Rle_dec 0 a); try lra.
  - rewrite Rabs_pos_eq by lra. ring.
  - destruct (Rlt_dec a 0); try lra. replace a with 0 by lra. rewrite sqrt_0. ring.
  - destruct (Rlt_dec a 0); try lra. rewrite Rabs_left by lra. ring.
Qed.
Lemma fourth_read x : (4 <= length x)%nat -> nth_error x 3 = Some (X x 4).
Proof. intros H. destruct x as [|a [|b [|c [|d x]]]]; simpl in H; try lia; reflexivity. Qed.
Lemma cf6c_ok n x : (4 <= length x)%nat -> cf6_con n x = Some (map Ropp (CF6c n x)).
Proof.
  intros H. unfold cf6_con, cf6_a, cf6_b. rewrite first_read, second_read, fourth_read by lia. rewrite !sroot_ok. f_equal. unfold CF6c. cbn [map].
  replace (sq (1 - X x 1)) with ((1 - X x 1) ^ 2) by (unfold sq; ring). f_equal; [|f_equal]; ring.
Qed.
Lemma cf7c_ok n x : (4 <= length x)%nat -> cf7_con n x = Some (map Ropp (CF7c n x)).
Proof.
  intros H. unfold cf7_con, cf6_a, cf6_b. rewrite first_read, second_read, fourth_read by lia. rewrite !sroot_ok. f_equal. unfold CF7c. cbn [map].
  replace (sq (1 - X x 1)) with ((1 - X x 1) ^ 2) by (unfold sq; ring). f_equal; [|f_equal]; ring.
Qed.
Lemma ratio_ok (h : R -> R) f : nth 2 f 0 ^ 2 <> 1 -> ratio_con (fun a => h (sin a)) f = Some (- Ratio h f).
Proof.
  intros H. unfold ratio_con, Ratio, reqb, sq. cbv zeta. replace (nth 2 f 0 * nth 2 f 0) with (nth 2 f 0 ^ 2) by ring. destruct (Req_EM_T (1 - nth 2 f 0 ^ 2) 0); [lra|]. f_equal.
  replace (nth 0 f 0 * nth 0 f 0) with (nth 0 f 0 ^ 2) by ring. replace (nth 1 f 0 * nth 1 f 0) with (nth 1 f 0 ^ 2) by ring. ring.
Qed.
Lemma ratio_none (h : R -> R) f : nth 2 f 0 ^ 2 = 1 -> ratio_con h f = None.
Proof. intros H. unfold ratio_con, reqb, sq. cbv zeta. replace (nth 2 f 0 * nth 2 f 0) with (nth 2 f 0 ^ 2) by ring. rewrite H. destruct (Req_EM_T (1 - 1) 0); [auto|lra]. Qed.

(** * ZDT *)
Lemma read_seq : forall x : list R, map (X x) (seq 1 (length x)) = x.
Proof.
  intros x. apply (nth_ext _ _ 0 0); [rewrite map_length, seq_length; auto|]. intros i Hi. rewrite map_length, seq_length in Hi. rewrite (nth_indep _ 0 (X x 0)) by (rewrite map_length, seq_length; auto).
  rewrite map_nth, seq_nth by auto. unfold X. f_equal. lia.
Qed.
Lemma seq_split (a b n : nat) : (b <= n)%nat -> seq a n = seq a b ++ seq (a + b) (n - b).
Proof. intros H. rewrite <- seq_app. f_equal. lia. Qed.
Lemma read_firstn x k : (k <= length x)%nat -> firstn k x = map (X x) (seq 1 k).
Proof.
  intros H. pose proof (read_seq x) as E. rewrite (seq_split 1 k) in E by auto. rewrite map_app in E. rewrite <- E at 1. rewrite firstn_app, map_length, seq_length, Nat.sub_diag. rewrite firstn_all2 by (rewrite map_length, seq_length; auto). cbn [firstn]. apply app_nil_r.
Qed.
Lemma read_skipn x k : (k <= length x)%nat -> skipn k x = map (X x) (seq (1 + k) (length x - k)).
Proof.
  intros H. pose proof (read_seq x) as E. rewrite (seq_split 1 k) in E by auto. rewrite map_app in E. rewrite <- E at 1. rewrite skipn_app, map_length, seq_length, Nat.sub_diag. rewrite skipn_all2 by (rewrite map_length, seq_length; auto). reflexivity.
Qed.
Lemma tl_skip (x : list R) : tl x = skipn 1 x.
Proof. destruct x; reflexivity. Qed.
Section ZDT.
Variables (n : nat) (x : list R).
Hypothesis L : length x = n.
Hypothesis Hn : (2 <= n)%nat.
Lemma mean_rest : mean (tl x) = Some (Sum (seq 2 (n - 1)) (X x) / (INR n - 1)).
Proof using L Hn.
  rewrite tl_skip, read_skipn by lia. rewrite L. change (1 + 1)%nat with 2%nat. unfold mean. replace (n - 1)%nat with (S (n - 2)) at 1 by lia. cbn [seq map]. f_equal. unfold Sum, vsum.
  replace (X x 2 :: map (X x) (seq 3 (n - 2))) with (map (X x) (seq 2 (n - 1))) by (replace (n - 1)%nat with (S (n - 2)) by lia; reflexivity).
  rewrite map_length, seq_length. rewrite minus_INR by lia. reflexivity.
Qed.
Lemma zdt_g_ok : zdt_g x = Some (ZDTg n x).
Proof using L Hn. unfold zdt_g. rewrite mean_rest. f_equal. unfold ZDTg, Rdiv. ring. Qed.
Lemma floor_error r : 0 <= r -> Rabs (sqrt (Rmax r eps) - sqrt r) <= / 10 ^ 6 /\ (/ 10 ^ 12 <= r -> Rmax r eps = r).
Proof using.
  clear. intros Hr. unfold eps. split.
  - unfold Rmax. destruct (Rle_dec r (/ 10 ^ 12)) as [H|H].
    + assert (E : sqrt (/ 10 ^ 12) = / 10 ^ 6). { replace (/ 10 ^ 12) with (/ 10 ^ 6 * / 10 ^ 6) by lra. apply sqrt_square. lra. }
      rewrite E. pose proof (sqrt_pos r). assert (sqrt r <= / 10 ^ 6) by (rewrite <- E; apply sqrt_le_1_alt; auto). rewrite Rabs_pos_eq; lra.
    + rewrite Rminus_diag_eq, Rabs_R0 by auto. lra.
  - intros H. apply Rmax_left. auto.
Qed.
Lemma scaled_error g a b e : 0 < g -> Rabs (b - a) <= e -> Rabs (g * (1 - b) - g * (1 - a)) <= g * e.
Proof using. clear. intros Hg H. replace (g * (1 - b) - g * (1 - a)) with (g * - (b - a)) by ring. rewrite Rabs_mult, Rabs_Ropp, (Rabs_pos_eq g) by lra. apply Rmult_le_compat_l; lra. Qed.
Lemma zdt1_ok : 0 <= X x 1 -> 0 < ZDTg n x -> Within (ZDTg n x) (zdt1 x) (ZDT1 n x) (/ 10 ^ 12 <= X x 1 / ZDTg n x).
Proof using L Hn.
  intros H1 Hg. unfold zdt1. rewrite first_read by lia. rewrite zdt_g_ok. assert (Hr : 0 <= X x 1 / ZDTg n x) by (apply Rmult_le_pos; auto; left; apply Rinv_0_lt_compat; auto). destruct (floor_error _ Hr) as [F1 F2].
  eexists. split; [reflexivity|]. split. - cbn [nth ZDT1]. apply scaled_error; auto. - intros H. rewrite F2 by auto. reflexivity.
Qed.
Lemma zdt2_ok : zdt2 x = Some (ZDT2 n x).
Proof using L Hn. unfold zdt2. rewrite first_read by lia. rewrite zdt_g_ok. f_equal. unfold ZDT2, sq. f_equal. f_equal. ring. Qed.
Lemma zdt3_ok : 0 <= X x 1 -> 0 < ZDTg n x -> Within (ZDTg n x) (zdt3 x) (ZDT3 n x) (/ 10 ^ 12 <= X x 1 / ZDTg n x).
Proof using L Hn.
  intros H1 Hg. unfold zdt3. rewrite first_read by lia. rewrite zdt_g_ok. assert (Hr : 0 <= X x 1 / ZDTg n x) by (apply Rmult_le_pos; auto; left; apply Rinv_0_lt_compat; auto). destruct (floor_error _ Hr) as [F1 F2].
  eexists. split; [reflexivity|]. split. 2:{ intros H. cbv zeta. rewrite F2 by auto. reflexivity. }
  cbn [nth ZDT3]. set (r := X x 1 / ZDTg n x) in *. replace (_ - _) with (ZDTg n x * (1 - sqrt (Rmax r eps)) - ZDTg n x * (1 - sqrt r)) by ring. apply scaled_error; auto.
Qed.
Lemma zdt4_g_ok : 1 + 10 * INR (length x - 1) + vsum (map (fun a => sq a - 10 * cos (4 * PI * a)) (tl x)) = ZDT4g n x.
Proof using L Hn.
  rewrite tl_skip, read_skipn by lia. rewrite L. change (1 + 1)%nat with 2%nat. rewrite map_map, vsum_sum, minus_INR by lia. unfold ZDT4g. simpl (INR 1). f_equal. apply sum_ext. intros j _. unfold sq. ring.
Qed.
Lemma zdt4_ok : 0 <= X x 1 -> 0 < ZDT4g n x -> Within (ZDT4g n x) (zdt4 x) (ZDT4 n x) (/ 10 ^ 12 <= X x 1 / ZDT4g n x).
Proof using L Hn.
  intros H1 Hg. unfold zdt4. rewrite first_read by lia. rewrite zdt4_g_ok. cbv zeta. assert (Hr : 0 <= X x 1 / ZDT4g n x) by (apply Rmult_le_pos; auto; left; apply Rinv_0_lt_compat; auto). destruct (floor_error _ Hr) as [F1 F2].
  eexists. split; [reflexivity|]. split. - cbn [nth ZDT4]. apply scaled_error; auto. - intros H. rewrite F2 by auto. reflexivity.
Qed.
Lemma zdt6_ok : / 10 ^ 12 <= Sum (seq 2 (n - 1)) (X x) / (INR n - 1) -> zdt6 x = Some (ZDT6 n x).
Proof using L Hn.
  intros H. unfold zdt6. rewrite first_read by lia. rewrite mean_rest. unfold eps. rewrite Rmax_left by auto. f_equal. unfold ZDT6. cbv zeta.
  assert (E : 1 + 9 * Rpower (Sum (seq 2 (n - 1)) (X x) / (INR n - 1)) (/ 4) = ZDT6g n x). { unfold ZDT6g, power. destruct (Req_EM_T _ 0) as [e|_]; [exfalso; rewrite e in H; lra|]. f_equal. f_equal. f_equal. lra. }
  rewrite E. f_equal. f_equal. unfold sq. ring.
Qed.
End ZDT.
Lemma sum_pos J f : (forall j, In j J -> 0 <= f j) -> 0 <= Sum J f.
Proof. unfold Sum. induction J as [|j J IH]; intros H; simpl; [lra|]. pose proof (H j (or_introl eq_refl)). assert (0 <= fold_right Rplus 0 (map f J)) by (apply IH; intros; apply H; right; auto). lra. Qed.
Lemma sum_low J f c : (forall j, In j J -> c <= f j) -> c * INR (length J) <= Sum J f.
Proof. unfold Sum. induction J as [|j J IH]; intros H; simpl map; simpl fold_right; [simpl; lra|]. cbn [length]. rewrite S_INR. pose proof (H j (or_introl eq_refl)). assert (c * INR (length J) <= fold_right Rplus 0 (map f J)) by (apply IH; intros; apply H; right; auto). lra. Qed.
Lemma ZDTg_ge1 n x : (2 <= n)%nat -> (forall j, (2 <= j <= n)%nat -> 0 <= X x j) -> 1 <= ZDTg n x.
Proof.
  intros Hn H. unfold ZDTg. assert (0 <= Sum (seq 2 (n - 1)) (X x)) by (apply sum_pos; intros j Hj; apply in_seq in Hj; apply H; lia). assert (2 <= INR n) by (apply (le_INR 2) in Hn; simpl in Hn; lra).
  assert (0 <= 9 / (INR n - 1) * Sum (seq 2 (n - 1)) (X x)). { apply Rmult_le_pos; auto. apply Rmult_le_pos; [lra|]. left. apply Rinv_0_lt_compat. lra. } lra.
Qed.
Lemma ZDT4g_ge1 n x : (2 <= n)%nat -> 1 <= ZDT4g n x.
Proof.
  intros Hn. unfold ZDT4g. pose proof (sum_low (seq 2 (n - 1)) (fun j => X x j ^ 2 - 10 * cos (4 * PI * X x j)) (-10)) as H. rewrite seq_length, minus_INR in H by lia. simpl (INR 1) in H.
  assert (-10 * (INR n - 1) <= Sum (seq 2 (n - 1)) (fun j => X x j ^ 2 - 10 * cos (4 * PI * X x j))); [|lra]. apply H. intros j _. pose proof (COS_bound (4 * PI * X x j)). pose proof (pow2_ge_0 (X x j)). lra.
Qed.

(** * DTLZ *)
Lemma Q_products (C D : nat -> R) : forall k a c, Q c (map C (seq a k)) (map D (seq a k)) = map (fun t => c * Prod (seq a t) C * (if (t =? k)%nat then 1 else D (a + t)%nat)) (seq 0 (k + 1)).
Proof.
  induction k as [|k IH]; intros a c.
  - cbn. f_equal. unfold Prod. cbn. ring.
  - replace (S k + 1)%nat with (S (k + 1)) by lia. cbn [seq map Q]. f_equal.
    + cbn [Nat.eqb]. unfold Prod. cbn. replace (a + 0)%nat with a by lia. ring.
    + rewrite IH. rewrite <- (seq_shift (k + 1) 0), map_map. apply map_ext. intros t. cbn [Nat.eqb]. replace (a + S t)%nat with (S a + t)%nat by lia. unfold Prod. cbn [seq map fold_right]. ring.
Qed.
Lemma rev_map_seq (f : nat -> R) : forall m, rev (map f (seq 0 m)) = map (fun i => f (m - i)%nat) (seq 1 m).
Proof.
  induction m as [|m IH]; [reflexivity|]. rewrite seq_S, map_app, rev_app_distr. cbn [map rev app]. rewrite IH. cbn [seq map]. f_equal; [f_equal; lia|]. rewrite <- (seq_shift m 1), map_map. apply map_ext. intros i. f_equal.
Qed.
Lemma position_products m (C D : nat -> R) : (1 <= m)%nat -> position (map C (seq 1 (m - 1))) (map D (seq 1 (m - 1))) = Products m 1 C D.
Proof.
  intros Hm. rewrite position_Q by (rewrite !map_length; auto). rewrite Q_products. replace (m - 1 + 1)%nat with m by lia. rewrite rev_map_seq. unfold Products. apply map_ext_in. intros i Hi. apply in_seq in Hi.
  destruct (Nat.eqb_spec (m - i) (m - 1)), (Nat.eqb_spec i 1); try lia; auto. replace (1 + (m - i))%nat with (m - i + 1)%nat by lia. auto.
Qed.
Lemma products_scale m c C D : map (fun p => c * p) (Products m 1 C D) = Products m c C D.
Proof. unfold Products. rewrite map_map. apply map_ext. intros i. ring. Qed.
Lemma sumf_sum (f : R -> R) (g : nat -> R) J : sumf f (map g J) = Sum J (fun j => f (g j)).
Proof. unfold sumf, Sum. induction J; simpl; auto. rewrite IHJ. auto. Qed.
Section DTLZ.
Variables (n m : nat) (x : list R).
Hypothesis L : length x = n.
Hypothesis Hm : (1 <= m <= n)%nat.
Lemma dtlz_products scale g tr (C D : R -> nat -> R) G : g (map (X x) (seq m (n + 1 - m))) = G ->
  (tr (map (X x) (seq 1 (m - 1))) G = (map (C G) (seq 1 (m - 1)), map (D G) (seq 1 (m - 1)))) ->
  dtlz_obj scale m g tr x = Products m (scale * (1 + G)) (C G) (D G).
Proof using L Hm.
  intros Eg Et. unfold dtlz_obj. rewrite read_firstn, read_skipn by lia. rewrite L. replace (1 + (m - 1))%nat with m by lia. replace (n - (m - 1))%nat with (n + 1 - m)%nat by lia. cbv zeta. rewrite Eg, Et. cbn [fst snd]. rewrite position_products by lia. apply products_scale.
Qed.
Lemma k_length : IZR (k_of n m) = INR (length (seq m (n + 1 - m))).
Proof using Hm. rewrite seq_length, INR_IZR_INZ. f_equal. unfold k_of. clear L; lia. Qed.
Lemma rast_ok : g_rastrigin (k_of n m) (map (X x) (seq m (n + 1 - m))) = GRast n x m.
Proof using Hm. unfold g_rastrigin, GRast. rewrite sumf_sum, k_length. f_equal. f_equal. apply sum_ext. intros j _. replace (/ 2) with 0.5 by lra. auto. Qed.
Lemma sphere_ok : g_sphere (map (X x) (seq m (n + 1 - m))) = GSphere n x m.
Proof using. clear. unfold g_sphere, GSphere. rewrite sumf_sum. apply sum_ext. intros j _. replace (/ 2) with 0.5 by lra. auto. Qed.
Lemma root_ok : (forall j, (m <= j <= n)%nat -> / 10 ^ 30 <= X x j) -> g_root (map (X x) (seq m (n + 1 - m))) = GRoot n x m.
Proof using. clear. intros H. unfold g_root, GRoot. rewrite sumf_sum. apply sum_ext. intros j Hj. apply in_seq in Hj. specialize (H j ltac:(lia)). rewrite Rabs_pos_eq by lra. rewrite Rmax_left by auto. unfold power. destruct (Req_EM_T (X x j) 0); [lra|]. f_equal. lra. Qed.
Lemma dtlz1_ok : dtlz1 n m x = DTLZ1 n x m.
Proof using L Hm.
  unfold dtlz1, DTLZ1. rewrite (dtlz_products _ _ _ (fun _ => X x) (fun _ j => 1 - X x j) _ rast_ok). - f_equal. f_equal. lra. - unfold tr_simplex. rewrite map_map. auto.
Qed.
Ltac angles := unfold tr_angle; rewrite !map_map; auto.
Lemma dtlz2_ok : dtlz2 n m x = DTLZ2 n x m.
Proof using L Hm.
  unfold dtlz2, DTLZ2. rewrite (dtlz_products _ _ _ (fun _ j => cos (X x j * PI / 2)) (fun _ j => sin (X x j * PI / 2)) _ sphere_ok). - f_equal. ring. - unfold tr_angle. rewrite !map_map. f_equal; apply map_ext; intros; rewrite pow_1; auto.
Qed.
Lemma dtlz3_ok : dtlz3 n m x = DTLZ3 n x m.
Proof using L Hm.
  unfold dtlz3, DTLZ3. rewrite (dtlz_products _ _ _ (fun _ j => cos (X x j * PI / 2)) (fun _ j => sin (X x j * PI / 2)) _ rast_ok). - f_equal. ring. - unfold tr_angle. rewrite !map_map. f_equal; apply map_ext; intros; rewrite pow_1; auto.
Qed.
Lemma dtlz4_ok : dtlz4 n m x = DTLZ4 n x m.
Proof using L Hm.
  unfold dtlz4, DTLZ4. rewrite (dtlz_products _ _ _ (fun _ j => cos (X x j ^ 100 * PI / 2)) (fun _ j => sin (X x j ^ 100 * PI / 2)) _ sphere_ok). - f_equal. ring. - unfold tr_angle. rewrite !map_map. auto.
Qed.
Lemma degenerate_ok G k : 1 + G <> 0 -> tr_degenerate (map (X x) (seq 1 k)) G = (map (fun j => cos (Theta x G j)) (seq 1 k), map (fun j => sin (Theta x G j)) (seq 1 k)).
Proof using.
  clear. intros HG. assert (H : match map (X x) (seq 1 k) with [] => [] | a :: t => a :: map (fun b => (1 + 2 * G * b) / (2 * (1 + G))) t end = map (fun j => Theta x G j / (PI / 2)) (seq 1 k)).
  { destruct k as [|k]; [reflexivity|]. cbn [seq map]. pose proof PI_RGT_0. f_equal. - unfold Theta. cbn. field. lra. - rewrite map_map. apply map_ext_in. intros j Hj. apply in_seq in Hj. unfold Theta. destruct (Nat.eqb_spec j 1); [lia|]. field. split; lra. }
  unfold tr_degenerate. rewrite H, !map_map. pose proof PI_RGT_0. f_equal; apply map_ext; intros j; f_equal; field; lra.
Qed.
Lemma dtlz5_ok : dtlz5 n m x = DTLZ5 n x m.
Proof using L Hm.
  assert (0 <= GSphere n x m) by (apply sum_pos; intros; apply pow2_ge_0).
  unfold dtlz5, DTLZ5. rewrite (dtlz_products _ _ _ (fun G j => cos (Theta x G j)) (fun G j => sin (Theta x G j)) _ sphere_ok). - f_equal. ring. - apply degenerate_ok. lra.
Qed.
Lemma dtlz6_ok : (forall j, (m <= j <= n)%nat -> / 10 ^ 30 <= X x j) -> dtlz6 n m x = DTLZ6 n x m.
Proof using L Hm.
  intros Hx. assert (0 <= GRoot n x m). { apply sum_pos. intros j _. unfold power. destruct (Req_EM_T _ _); [lra|]. left. apply exp_pos. }
  unfold dtlz6, DTLZ6. rewrite (dtlz_products _ _ _ (fun G j => cos (Theta x G j)) (fun G j => sin (Theta x G j)) _ (root_ok Hx)). - f_equal. ring. - apply degenerate_ok. lra.
Qed.
Lemma dtlz7_ok : dtlz7 n m x = DTLZ7 n x m.
Proof using L Hm.
  unfold dtlz7, DTLZ7, g_linear. rewrite read_firstn, read_skipn by lia. rewrite L. replace (1 + (m - 1))%nat with m by lia. replace (n - (m - 1))%nat with (n + 1 - m)%nat by lia. cbv zeta. rewrite !sumf_sum, k_length. reflexivity.
Qed.
End DTLZ.

(** * CF4 differs from the published problem *)
Lemma cf4_differs n : (4 <= n)%nat -> Nat.even n = true -> exists x, in_box n 1 0 1 (-2) 2 x /\ cf4 n x = Some [nth 0 (CF4 n x) 0; nth 1 (CF4 n x) 0 - 1].
Proof.
  intros Hn He. assert (4 <= INR n) by (apply (le_INR 4) in Hn; simpl in Hn; lra). assert (0 < / INR n <= / 4) by (split; [apply Rinv_0_lt_compat; lra|apply Rinv_le_contravar; lra]).
  set (x := (1 - 2 / INR n) / 6 :: repeat 2 (n - 1)). assert (Hb : in_box n 1 0 1 (-2) 2 x).
  { split; [unfold x; simpl; rewrite repeat_length; lia|]. intros i Hi. destruct i as [|i]; cbn [Nat.ltb Nat.leb nth x].
    - unfold Rdiv. lra.
    - rewrite nth_indep with (d' := 2) by (rewrite repeat_length; lia). rewrite nth_repeat. lra. }
  exists x. split; auto. pose proof (cf4_is n x (proj1 Hb) He Hn Hb) as E. cbv zeta in E.
  assert (E2 : X x 2 = 2). { unfold X, x. replace (n - 1)%nat with (S (n - 2)) by lia. reflexivity. }
  assert (E1 : 6 * PI * X x 1 + 2 * PI / INR n = PI). { unfold X, x. cbn [nth Nat.sub]. field. lra. }
  rewrite E1, E2, sin_PI in E. destruct (Rlt_dec (2 - 0) _) as [H1|_]; [exfalso; pose proof (sqrt_pos 2); lra|]. rewrite E. f_equal. f_equal. f_equal. f_equal. ring.
Qed.
