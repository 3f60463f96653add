(** Pareto sets of the DTLZ problems. *)
From Coq Require Import List Arith Reals ZArith Lia Lra.
From Verif Require Import Num Exn ListAux ProbModel ProbSpec ProbProof ProbTop PropsProb.
Import ListNotations.
Open Scope R_scope.

(** * sums *)
Definition sval (a : R) : R := a * (1 + sin (3 * PI * a)).
Definition record (a : R) : Prop := forall t, 0 <= t < a -> sval t < sval a.
Lemma sumf_ext f h l : (forall a, In a l -> f a = h a) -> sumf f l = sumf h l.
Proof. induction l as [|a l IH]; simpl; intros H; [reflexivity|]. unfold sumf in *. simpl. rewrite H, IH; auto. Qed.
Lemma sumf_scale c f l : sumf (fun a => c * f a) l = c * sumf f l.
Proof. induction l as [|a l IH]; unfold sumf in *; simpl; [ring|]. rewrite IH. ring. Qed.
Lemma sumf_id_nonneg l : Forall (fun a => 0 <= a <= 1) l -> 0 <= sumf (fun a => a) l /\ (sumf (fun a => a) l = 0 <-> Forall (fun a => a = 0) l).
Proof.
  intros H. induction H as [|a l Ha _ [I1 I2]]; unfold sumf in *; simpl; [split; [lra|]; split; auto|]. split; [lra|]. split.
  - intros E. constructor; [lra|]. apply I2. lra.
  - intros E. inversion E; subst. rewrite (proj2 I2); [lra|auto].
Qed.
Lemma cube_skipn n k x : cube n x -> Forall (fun a => 0 <= a <= 1) (skipn k x).
Proof. intros [_ H]. rewrite <- (firstn_skipn k x) in H. apply Forall_app in H. apply H. Qed.
Lemma cube_app n k f xm : cube n (f ++ xm) -> length f = k -> firstn k (f ++ xm) = f /\ skipn k (f ++ xm) = xm.
Proof. intros _ <-. split; [rewrite firstn_app, Nat.sub_diag, firstn_all; simpl; apply app_nil_r|rewrite skipn_app, Nat.sub_diag, skipn_all; reflexivity]. Qed.
Lemma cube_zero_row n u : Forall (fun a => 0 <= a <= 1) u -> (length u <= n)%nat -> cube n (pareto_row (n - length u) 0 u).
Proof.
  intros H L. split; [unfold pareto_row; rewrite app_length, repeat_length; lia|]. apply Forall_app. split; auto. apply Forall_forall. intros a Ha. apply repeat_spec in Ha. subst. lra.
Qed.

(** * DTLZ7 *)
Lemma k_pos n m : (1 <= m)%nat -> (m <= n)%nat -> 0 < IZR (k_of n m).
Proof. intros Hm Hn. apply IZR_lt. unfold k_of. lia. Qed.
Lemma g_linear_ge n m xm : (1 <= m)%nat -> (m <= n)%nat -> Forall (fun a => 0 <= a <= 1) xm ->
  1 <= g_linear (k_of n m) xm /\ (g_linear (k_of n m) xm = 1 <-> Forall (fun a => a = 0) xm).
Proof.
  intros Hm Hn H. unfold g_linear. destruct (sumf_id_nonneg xm H) as [S1 S2]. assert (K : 0 < 9 / IZR (k_of n m)) by (apply Rdiv_lt_0_compat; [lra|apply k_pos; auto]).
  split; [assert (0 <= 9 / IZR (k_of n m) * sumf (fun a => a) xm) by (apply Rmult_le_pos; lra); lra|]. rewrite <- S2. split; intros E.
  - assert (Z : 9 / IZR (k_of n m) * sumf (fun a => a) xm = 0) by lra. apply Rmult_integral in Z. destruct Z; lra.
  - rewrite E. lra.
Qed.
Lemma dtlz7_value n m x : (1 <= m)%nat -> (m <= n)%nat -> cube n x ->
  dtlz7 n m x = firstn (m - 1) x ++ [(1 + g_linear (k_of n m) (skipn (m - 1) x)) * INR m - sumf sval (firstn (m - 1) x)].
Proof.
  intros Hm Hn Hx. unfold dtlz7. cbv zeta. f_equal. f_equal. destruct (g_linear_ge n m (skipn (m - 1) x) Hm Hn (cube_skipn n _ x Hx)) as [G _].
  set (g := g_linear _ _) in *. rewrite Rmult_minus_distr_l. f_equal. rewrite <- sumf_scale. apply sumf_ext. intros a _. unfold sval. field. lra.
Qed.
Lemma leqv_snoc a b u v : leqv (a ++ [u]) (b ++ [v]) <-> leqv a b /\ u <= v.
Proof.
  split.
  - intros H. unfold leqv in *. apply Forall2_app_inv_l in H. destruct H as (l1 & l2 & H1 & H2 & E). inversion H2; subst. inversion H5; subst. apply app_inj_tail in E. destruct E; subst. auto.
  - intros [H1 H2]. apply Forall2_app; auto.
Qed.
Lemma leqv_refl a : leqv a a.
Proof. induction a; constructor; auto. lra. Qed.
Lemma records_le : forall f f', Forall record f -> Forall (fun a => 0 <= a <= 1) f' -> leqv f' f -> sumf sval f' <= sumf sval f /\ (sumf sval f' = sumf sval f -> f' = f).
Proof.
  intros f f' Hr H01 Hl. induction Hl as [|a b l l' Hab Hl IH]; [split; [lra|auto]|]. inversion Hr; inversion H01; subst. destruct IH as [I1 I2]; auto. unfold sumf in *. cbn [fold_right].
  assert (S : sval a <= sval b /\ (sval a = sval b -> a = b)).
  { destruct (Rle_lt_or_eq_dec a b Hab) as [Hlt| ->]; [|split; [lra|auto]]. pose proof (H1 a ltac:(lra)). split; [lra|]. lra. }
  split; [lra|]. intros E. f_equal; [apply S; lra|apply I2; lra].
Qed.
Lemma replace_at (f : list R) a : In a f -> exists l r, f = l ++ a :: r.
Proof. apply in_split. Qed.
Theorem dtlz7_exact n m x : (1 <= m)%nat -> (m <= n)%nat -> cube n x ->
  (optimal (cube n) (dtlz7 n m) (dtlz7 n m x) <-> Forall (fun a => a = 0) (skipn (m - 1) x) /\ Forall record (firstn (m - 1) x)).
Proof.
  intros Hm Hn Hx. assert (Hm0 : 0 < INR m) by (apply lt_0_INR; lia). set (f := firstn (m - 1) x). set (xm := skipn (m - 1) x).
  assert (Hf : Forall (fun a => 0 <= a <= 1) f) by (apply (cube_firstn n); auto). assert (Hxm : Forall (fun a => 0 <= a <= 1) xm) by (apply (cube_skipn n); auto).
  assert (Lf : length f = (m - 1)%nat) by (unfold f; rewrite firstn_length, (proj1 Hx); lia).
  destruct (g_linear_ge n m xm Hm Hn Hxm) as [G1 G2]. rewrite (dtlz7_value n m x) by auto. fold f xm. split.
  - intros Hopt. assert (ROW : forall f', Forall (fun a => 0 <= a <= 1) f' -> length f' = (m - 1)%nat -> cube n (f' ++ repeat 0 (n - (m - 1))) /\
      dtlz7 n m (f' ++ repeat 0 (n - (m - 1))) = f' ++ [2 * INR m - sumf sval f']).
    { intros f' H' L'. assert (C : cube n (f' ++ repeat 0 (n - (m - 1)))) by (rewrite <- L'; apply cube_zero_row; auto; lia). split; auto.
      rewrite dtlz7_value by auto. destruct (cube_app n (m - 1) f' _ C L') as [-> ->]. rewrite (proj2 (proj2 (g_linear_ge n m (repeat 0 (n - (m - 1))) Hm Hn ltac:(apply Forall_forall; intros a Ha; apply repeat_spec in Ha; subst; lra)))); [do 2 f_equal; ring|].
      apply Forall_forall. intros a Ha. apply repeat_spec in Ha. auto. }
    assert (Z : Forall (fun a => a = 0) xm).
    { apply G2. destruct (Req_dec (g_linear (k_of n m) xm) 1) as [|N]; auto. exfalso. destruct (ROW f Hf Lf) as [C V]. apply (Hopt _ C). rewrite V.
      assert (B : 2 * INR m < (1 + g_linear (k_of n m) xm) * INR m) by (apply Rmult_lt_compat_r; lra).
      split; [apply leqv_snoc; split; [apply leqv_refl|lra]|]. intros E. apply app_inj_tail in E. destruct E as [_ E]. lra. }
    split; auto. apply Forall_forall. intros a Ha t Ht. destruct (Rlt_le_dec (sval t) (sval a)) as [|Hle]; auto. exfalso.
    destruct (in_split a f Ha) as (l & r & E). assert (H' : Forall (fun a => 0 <= a <= 1) (l ++ t :: r)).
    { rewrite E in Hf. apply Forall_app in Hf. destruct Hf as [F1 F2]. inversion F2; subst. apply Forall_app. split; auto. constructor; auto. lra. }
    assert (L' : length (l ++ t :: r) = (m - 1)%nat) by (rewrite <- Lf, E, !app_length; reflexivity). destruct (ROW _ H' L') as [C V]. apply (Hopt _ C). rewrite V.
    rewrite (proj2 G2 Z), E.
    assert (SP : forall b, sumf sval (l ++ b :: r) = sumf sval l + sval b + sumf sval r).
    { intros b. unfold sumf. rewrite fold_right_app. cbn [fold_right]. clear. induction l as [|c l IH]; cbn [fold_right]; [ring|]. rewrite IH. ring. }
    split; [apply leqv_snoc; split|].
    + apply Forall2_app; [apply leqv_refl|]. constructor; [lra|apply leqv_refl].
    + rewrite !SP. lra.
    + intros Q. apply app_inj_tail in Q. destruct Q as [Q _]. apply app_inv_head in Q. injection Q as Q. lra.
  - intros [Z Hr] x' Hx' [HL HN]. rewrite dtlz7_value in HL, HN by auto. apply leqv_snoc in HL. destruct HL as [HL HL'].
    destruct (records_le f _ Hr (cube_firstn n (m - 1) x' Hx') HL) as [S1 S2]. destruct (g_linear_ge n m (skipn (m - 1) x') Hm Hn (cube_skipn n _ x' Hx')) as [G1' _].
    rewrite (proj2 G2 Z) in HL', HN. apply HN.
    assert (B : (1 + 1) * INR m <= (1 + g_linear (k_of n m) (skipn (m - 1) x')) * INR m) by (apply Rmult_le_compat_r; lra).
    rewrite (S2 ltac:(lra)) in *. f_equal. f_equal. lra.
Qed.
Theorem dtlz7_last n m x : (1 <= m)%nat -> (m <= n)%nat -> cube n x ->
  exists y, dtlz7 n m x = firstn (m - 1) x ++ [y] /\ 2 * INR m - sumf (fun a => a * (1 + sin (3 * PI * a))) (firstn (m - 1) x) <= y /\
    (y = 2 * INR m - sumf (fun a => a * (1 + sin (3 * PI * a))) (firstn (m - 1) x) <-> forall a, In a (skipn (m - 1) x) -> a = 0).
Proof.
  intros Hm Hn Hx. assert (Hm0 : 0 < INR m) by (apply lt_0_INR; lia). rewrite dtlz7_value by auto. eexists. split; [reflexivity|]. fold sval.
  destruct (g_linear_ge n m (skipn (m - 1) x) Hm Hn (cube_skipn n _ x Hx)) as [G1 G2]. rewrite <- Forall_forall, <- G2. set (g := g_linear _ _) in *.
  change (sumf (fun a => a * (1 + sin (3 * PI * a)))) with (sumf sval). split.
  - assert ((1 + 1) * INR m <= (1 + g) * INR m) by (apply Rmult_le_compat_r; lra). lra.
  - split; intros E; [|rewrite E; ring]. assert (Z : (g - 1) * INR m = 0) by lra. apply Rmult_integral in Z. destruct Z; lra.
Qed.

(** * rows of the Pareto sets of DTLZ1-6 *)
Lemma angle01 b : 0 <= b <= 1 -> 0 <= cos (b * PI / 2) /\ 0 <= sin (b * PI / 2).
Proof.
  intros H. pose proof PI_RGT_0. assert (0 <= b * PI <= 1 * PI) by (split; [apply Rmult_le_pos; lra|apply Rmult_le_compat_r; lra]).
  split; [apply cos_ge_0; lra|apply sin_ge_0; lra].
Qed.
Lemma theta01 b g : 0 <= b <= 1 -> 0 <= g -> 0 <= (1 + 2 * g * b) / (2 * (1 + g)) <= 1.
Proof.
  intros Hb Hg. assert (P : 0 <= g * b <= g * 1) by (split; [apply Rmult_le_pos; lra|apply Rmult_le_compat_l; lra]). split.
  - apply Rmult_le_pos; [lra|]. apply Rlt_le, Rinv_0_lt_compat. lra.
  - apply (Rmult_le_reg_r (2 * (1 + g))); [lra|]. unfold Rdiv. rewrite Rmult_assoc, Rinv_l by lra. lra.
Qed.
Lemma degen_nonneg u g : 0 <= g -> Forall (fun a => 0 <= a <= 1) u -> Forall2 (fun a b => 0 <= a /\ 0 <= b) (fst (tr_degenerate u g)) (snd (tr_degenerate u g)).
Proof.
  intros Hg H. unfold tr_degenerate. cbn [fst snd]. apply Forall2_map_same. intros a Ha. apply angle01. destruct u as [|b u]; [destruct Ha|]. inversion H; subst. destruct Ha as [<-|Ha]; auto.
  apply in_map_iff in Ha. destruct Ha as (c & <- & Hc). apply theta01; auto. rewrite Forall_forall in H3. auto.
Qed.
Lemma simplex_nonneg u g : Forall (fun a => 0 <= a <= 1) u -> Forall2 (fun a b => 0 <= a /\ 0 <= b) (fst (tr_simplex u g)) (snd (tr_simplex u g)).
Proof.
  intros H. unfold tr_simplex. cbn [fst snd]. rewrite <- (map_id u) at 1. apply Forall2_map_same. intros a Ha. rewrite Forall_forall in H. specialize (H a Ha). lra.
Qed.
Lemma position_nonneg x1 x2 : Forall2 (fun a b => 0 <= a /\ 0 <= b) x1 x2 -> Forall (fun a => 0 <= a) (position x1 x2).
Proof. intros H. rewrite position_Q by (eapply Forall2_len; eauto). apply Forall_rev. apply Q_nonneg; auto. lra. Qed.
Lemma obj_nonneg sc m g tr x : 0 <= sc -> 0 <= g (skipn (m - 1) x) ->
  Forall2 (fun a b => 0 <= a /\ 0 <= b) (fst (tr (firstn (m - 1) x) (g (skipn (m - 1) x)))) (snd (tr (firstn (m - 1) x) (g (skipn (m - 1) x)))) ->
  Forall (fun a => 0 <= a) (dtlz_obj sc m g tr x).
Proof.
  intros Hs Hg H. unfold dtlz_obj. apply Forall_map. apply position_nonneg in H. revert H. apply Forall_impl. intros a Ha. repeat apply Rmult_le_pos; lra.
Qed.
Definition trig (tr : list R -> R -> list R * list R) : Prop := forall u g, 0 <= g -> Forall (fun a => 0 <= a <= 1) u ->
  Forall2 (fun a b => 0 <= a /\ 0 <= b) (fst (tr u g)) (snd (tr u g)) /\ Forall2 (fun a b => a * a + b * b = 1) (fst (tr u g)) (snd (tr u g)).
Lemma trig_angle al : trig (tr_angle al).
Proof. intros u g Hg H. split; [apply angle_nonneg; auto|apply angle_pairs]. Qed.
Lemma trig_degen : trig tr_degenerate.
Proof. intros u g Hg H. split; [apply degen_nonneg; auto|apply degen_pairs]. Qed.
Lemma sphere_optimal n m g tr x : trig tr -> cube n x -> (forall x', cube n x' -> 0 <= g (skipn (m - 1) x) <= g (skipn (m - 1) x')) ->
  optimal (cube n) (dtlz_obj 1 m g tr) (dtlz_obj 1 m g tr x).
Proof.
  intros Ht Hx Hg x' Hx' HD. destruct (Hg x' Hx') as [G0 G1]. destruct (Ht (firstn (m - 1) x') (g (skipn (m - 1) x')) ltac:(lra) (cube_firstn n _ _ Hx')) as [N1 N2].
  destruct (Ht (firstn (m - 1) x) (g (skipn (m - 1) x)) G0 (cube_firstn n _ _ Hx)) as [_ N3].
  apply dominates_sqnorm in HD; [|apply obj_nonneg; auto; lra]. rewrite !dtlz_sqnorm in HD by auto.
  apply (Rlt_irrefl ((1 + g (skipn (m - 1) x)) * (1 + g (skipn (m - 1) x)))). eapply Rle_lt_trans; [|eapply Rlt_le_trans; [exact HD|]]; [|lra].
  replace (1 * 1 * ((1 + g (skipn (m - 1) x')) * (1 + g (skipn (m - 1) x')))) with ((1 + g (skipn (m - 1) x')) * (1 + g (skipn (m - 1) x'))) by ring.
  replace (1 * (1 + g (skipn (m - 1) x')) * (1 * (1 + g (skipn (m - 1) x')))) with ((1 + g (skipn (m - 1) x')) * (1 + g (skipn (m - 1) x'))) by ring.
  apply Rmult_le_compat; lra.
Qed.
Lemma leqv_map (f h : R -> R) l : (forall a, In a l -> f a <= h a) -> leqv (map f l) (map h l).
Proof. intros H. induction l as [|a l IH]; constructor; [apply H; left; auto|apply IH; intros; apply H; right; auto]. Qed.
Lemma row_parts q k opt u : length u = q -> firstn q (pareto_row k opt u) = u /\ skipn q (pareto_row k opt u) = repeat opt k.
Proof. intros <-. split; [apply firstn_row|apply skipn_row]. Qed.
(** a vector with positive distance is dominated by the row with the same position variables *)
Lemma far_dominated sc m g tr n x : 0 <= sc -> (1 <= m)%nat -> (m <= n + 1)%nat -> (forall u gv, tr u gv = tr u 0) ->
  (forall u, Forall (fun a => 0 <= a <= 1) u -> Forall2 (fun a b => 0 <= a /\ 0 <= b) (fst (tr u 0)) (snd (tr u 0))) ->
  cube n x -> 0 < g (skipn (m - 1) x) -> g (repeat (/ 2) (n - (m - 1))) = 0 ->
  let r := pareto_row (n - (m - 1)) (/ 2) (firstn (m - 1) x) in
  dtlz_obj sc m g tr r <> dtlz_obj sc m g tr x -> cube n r /\ dominates (dtlz_obj sc m g tr r) (dtlz_obj sc m g tr x).
Proof.
  intros Hs Hm Hn Ht Hp Hx Hg Hz r HN. assert (Lu : length (firstn (m - 1) x) = (m - 1)%nat) by (rewrite firstn_length, (proj1 Hx); lia).
  split; [unfold r; rewrite <- Lu at 1; apply row_cube; [apply (cube_firstn n); auto|lia]|]. split; auto.
  unfold dtlz_obj. cbv zeta. rewrite !(Ht _ (g _)). replace (firstn (m - 1) r) with (firstn (m - 1) x) by (symmetry; apply row_parts; auto).
  replace (skipn (m - 1) r) with (repeat (/ 2) (n - (m - 1))) by (symmetry; apply row_parts; auto). rewrite Hz.
  apply leqv_map. intros a Ha. pose proof (position_nonneg _ _ (Hp _ (cube_firstn n (m - 1) x Hx))) as P. rewrite Forall_forall in P. specialize (P a Ha).
  apply Rmult_le_compat_r; auto. apply Rmult_le_compat_l; lra.
Qed.
Lemma all_half (l : list R) : (forall a, In a l -> a = / 2) -> l = repeat (/ 2) (length l).
Proof. intros H. induction l as [|a l IH]; auto. cbn [repeat length]. f_equal; [apply H; left; auto|apply IH; intros; apply H; right; auto]. Qed.
Lemma skip_len n m x : cube n x -> (1 <= m)%nat -> length (skipn (m - 1) x) = (n - (m - 1))%nat.
Proof. intros [H _] _. rewrite skipn_length. lia. Qed.
Lemma g_opt' n m : (1 <= m)%nat -> (m <= n + 1)%nat -> g_sphere (repeat (/ 2) (n - (m - 1))) = 0 /\ g_rastrigin (k_of n m) (repeat (/ 2) (n - (m - 1))) = 0.
Proof. intros Hm Hn. pose proof (g_opt n m (repeat 0 (m - 1)) ltac:(apply repeat_length) Hm Hn) as H. rewrite repeat_length in H. auto. Qed.
Lemma trig_exact n m g tr x : trig tr -> (forall u gv, tr u gv = tr u 0) -> (1 <= m)%nat -> (m <= n + 1)%nat -> cube n x ->
  (forall x', cube n x' -> 0 <= g (skipn (m - 1) x')) -> g (repeat (/ 2) (n - (m - 1))) = 0 ->
  (optimal (cube n) (dtlz_obj 1 m g tr) (dtlz_obj 1 m g tr x) <-> g (skipn (m - 1) x) = 0).
Proof.
  intros Ht Hc Hm Hn Hx Hg Hz. split.
  - intros Ho. destruct (Rle_lt_or_eq_dec 0 _ (Hg x Hx)) as [Hlt|]; auto. exfalso.
    assert (Lu : length (firstn (m - 1) x) = (m - 1)%nat) by (rewrite firstn_length, (proj1 Hx); lia).
    destruct (far_dominated 1 m g tr n x ltac:(lra) Hm Hn Hc (fun u Hu => proj1 (Ht u 0 ltac:(lra) Hu)) Hx Hlt Hz) as [C D]; [|apply (Ho _ C D)].
    intros E. apply (f_equal sqnorm) in E.
    assert (C : cube n (pareto_row (n - (m - 1)) (/ 2) (firstn (m - 1) x))) by (rewrite <- Lu at 1; apply row_cube; [apply (cube_firstn n); auto|lia]).
    rewrite !dtlz_sqnorm in E by (apply Ht; [apply Hg; auto|apply (cube_firstn n); auto]).
    replace (skipn (m - 1) (pareto_row (n - (m - 1)) (/ 2) (firstn (m - 1) x))) with (repeat (/ 2) (n - (m - 1))) in E by (symmetry; apply row_parts; auto).
    rewrite Hz in E. set (gv := g (skipn (m - 1) x)) in *. assert (Z : gv * (2 + gv) = 0) by lra. apply Rmult_integral in Z. lra.
  - intros E. apply sphere_optimal; auto. intros x' Hx'. rewrite E. specialize (Hg x' Hx'). lra.
Qed.
Theorem pareto_sets n m x : (1 <= m)%nat -> (m <= n + 1)%nat -> cube n x ->
  let opt f := optimal (cube n) f (f x) in let half := forall a, In a (skipn (m - 1) x) -> a = / 2 in
  (opt (dtlz1 n m) <-> half) /\ (opt (dtlz2 n m) <-> half) /\ (opt (dtlz3 n m) <-> half) /\ (opt (dtlz4 n m) <-> half) /\ (half -> opt (dtlz5 n m)).
Proof.
  intros Hm Hn Hx opt half. destruct (g_opt' n m Hm Hn) as [Z1 Z2].
  assert (RN : forall x', cube n x' -> 0 <= g_rastrigin (k_of n m) (skipn (m - 1) x')) by (intros x' [Hx' _]; rewrite (k_len n m x') by auto; apply g_rast_nonneg).
  assert (RZ : g_rastrigin (k_of n m) (skipn (m - 1) x) = 0 <-> half) by (rewrite (k_len n m x) by (auto; apply Hx); apply g_rast_zero).
  assert (SZ : g_sphere (skipn (m - 1) x) = 0 <-> half) by apply g_sphere_zero.
  split; [|split; [|split; [|split]]].
  - rewrite <- RZ. unfold opt, dtlz1. split.
    + intros Ho. destruct (Rle_lt_or_eq_dec 0 _ (RN x Hx)) as [Hlt|]; auto. exfalso.
      assert (Lu : length (firstn (m - 1) x) = (m - 1)%nat) by (rewrite firstn_length, (proj1 Hx); lia).
      destruct (far_dominated (/ 2) m _ tr_simplex n x ltac:(lra) Hm Hn ltac:(reflexivity) ltac:(intros; apply simplex_nonneg; auto) Hx Hlt Z2) as [C D]; [|apply (Ho _ C D)].
      intros E. apply (f_equal total) in E. rewrite !dtlz_total in E by apply simplex_pairs.
      replace (skipn (m - 1) (pareto_row (n - (m - 1)) (/ 2) (firstn (m - 1) x))) with (repeat (/ 2) (n - (m - 1))) in E by (symmetry; apply row_parts; auto).
      rewrite Z2 in E. lra.
    + intros E x' Hx' HD. apply dominates_total in HD. rewrite !dtlz_total, E in HD by apply simplex_pairs. specialize (RN x' Hx'). lra.
  - rewrite <- SZ. apply trig_exact; auto; [apply trig_angle|intros; apply g_sphere_nonneg].
  - rewrite <- RZ. apply trig_exact; auto. apply trig_angle.
  - rewrite <- SZ. apply trig_exact; auto; [apply trig_angle|intros; apply g_sphere_nonneg].
  - intros Hh. apply sphere_optimal; [apply trig_degen|auto|]. intros x' _. rewrite (proj2 SZ Hh). split; [lra|apply g_sphere_nonneg].
Qed.
Theorem dtlz6_set n m u : (1 <= m)%nat -> (m <= n + 1)%nat -> length u = (m - 1)%nat -> Forall (fun a => 0 <= a <= 1) u ->
  let x := pareto_row (n - length u) 0 u in cube n x /\ optimal (cube n) (dtlz6 n m) (dtlz6 n m x).
Proof.
  intros Hm Hn Lu Hu x. assert (Hx : cube n x) by (apply cube_zero_row; auto; lia). split; auto. apply sphere_optimal; auto; [apply trig_degen|]. intros x' Hx'.
  replace (skipn (m - 1) x) with (repeat 0 (length (skipn (m - 1) x'))) by (unfold x; rewrite <- Lu, skipn_row, Lu, (skip_len n) by auto; auto).
  destruct (C65_dtlz6_distance (skipn (m - 1) x')) as [G1 G2]. rewrite G2. split; auto. pose proof (pos_INR (length (skipn (m - 1) x'))). lra.
Qed.

(** * the curve of DTLZ5 *)
Lemma sin_scale s x : 0 <= x <= PI / 2 -> 1 <= s -> sin x <= s * sin (x / s).
Proof.
  intros Hx Hs. pose proof PI_RGT_0. destruct (Req_dec s 1) as [->|N1]; [unfold Rdiv; rewrite Rinv_1, Rmult_1_r, Rmult_1_l; lra|]. destruct (Req_dec x 0) as [->|N0]; [unfold Rdiv; rewrite Rmult_0_l, sin_0; lra|].
  assert (Hy : 0 < x / s) by (apply Rdiv_lt_0_compat; lra). assert (Hyx : x / s < x). { apply (Rmult_lt_reg_r s); [lra|]. unfold Rdiv. rewrite Rmult_assoc, Rinv_l, Rmult_1_r by lra. rewrite <- (Rmult_1_r x) at 1. apply Rmult_lt_compat_l; lra. }
  assert (Hxy : s * (x / s) = x) by (field; lra).
  destruct (MVT_cor2 sin cos 0 (x / s) Hy (fun c _ => derivable_pt_lim_sin c)) as (c1 & E1 & B1). destruct (MVT_cor2 sin cos (x / s) x Hyx (fun c _ => derivable_pt_lim_sin c)) as (c2 & E2 & B2).
  rewrite sin_0 in E1. assert (HC : cos c2 <= cos c1) by (apply cos_decr_1; lra).
  assert (P : cos c2 * (x - x / s) <= cos c1 * (x - x / s)) by (apply Rmult_le_compat_r; lra).
  replace (s * sin (x / s)) with (cos c1 * (s * (x / s))) by (replace (sin (x / s)) with (cos c1 * (x / s - 0)) by lra; ring). rewrite Hxy. lra.
Qed.
Lemma theta_bounds b g : 0 <= b <= 1 -> 0 <= g -> let t := (1 + 2 * g * b) / (2 * (1 + g)) * PI / 2 in PI / 4 / (1 + g) <= t <= PI / 2 - PI / 4 / (1 + g).
Proof.
  intros Hb Hg t. pose proof PI_RGT_0. assert (E : t = PI / 4 / (1 + g) + (g * b) * (PI / 2) / (1 + g)) by (unfold t; field; lra).
  assert (E' : PI / 2 - PI / 4 / (1 + g) - t = g * (1 - b) * (PI / 2) / (1 + g)) by (unfold t; field; lra).
  assert (I : 0 < / (1 + g)) by (apply Rinv_0_lt_compat; lra).
  assert (0 <= (g * b) * (PI / 2) / (1 + g)) by (apply Rmult_le_pos; [|lra]; apply Rmult_le_pos; [|lra]; apply Rmult_le_pos; lra).
  assert (0 <= g * (1 - b) * (PI / 2) / (1 + g)) by (apply Rmult_le_pos; [|lra]; apply Rmult_le_pos; [|lra]; apply Rmult_le_pos; lra). lra.
Qed.
Lemma theta_ge b g : 0 <= b <= 1 -> 0 <= g -> let t := (1 + 2 * g * b) / (2 * (1 + g)) * PI / 2 in sin (PI / 4) <= (1 + g) * cos t /\ sin (PI / 4) <= (1 + g) * sin t.
Proof.
  intros Hb Hg t. pose proof PI_RGT_0. destruct (theta_bounds b g Hb Hg) as [B1 B2]. fold t in B1, B2.
  assert (H0 : 0 < PI / 4 / (1 + g)) by (apply Rdiv_lt_0_compat; lra). pose proof (sin_scale (1 + g) (PI / 4) ltac:(lra) ltac:(lra)) as HS. split.
  - eapply Rle_trans; [exact HS|]. apply Rmult_le_compat_l; [lra|]. rewrite <- cos_shift. apply cos_decr_1; lra.
  - eapply Rle_trans; [exact HS|]. apply Rmult_le_compat_l; [lra|]. apply sin_incr_1; lra.
Qed.
Lemma dtlz5_three n a b xm : let g := g_sphere xm in let t := (1 + 2 * g * b) / (2 * (1 + g)) * PI / 2 in
  dtlz5 n 3 (a :: b :: xm) = [(1 + g) * (cos (a * PI / 2) * cos t); (1 + g) * (cos (a * PI / 2) * sin t); (1 + g) * sin (a * PI / 2)].
Proof.
  intros g t. unfold dtlz5, dtlz_obj. cbn [Nat.sub firstn skipn]. unfold tr_degenerate, position. cbn [fst snd map rev app cumprod vmul]. fold g. fold t.
  repeat (apply (f_equal2 (@cons R)); [ring|]). reflexivity.
Qed.
Definition curve (a : R) : list R := [cos (a * PI / 2) / sqrt 2; cos (a * PI / 2) / sqrt 2; sin (a * PI / 2)].
Lemma dtlz5_row n a b xm : (forall c, In c xm -> c = / 2) -> dtlz5 n 3 (a :: b :: xm) = curve a.
Proof.
  intros H. rewrite dtlz5_three. rewrite (proj2 (g_sphere_zero xm) H). replace ((1 + 2 * 0 * b) / (2 * (1 + 0)) * PI / 2) with (PI / 4) by field. rewrite sin_PI4, cos_PI4. unfold curve.
  repeat (apply (f_equal2 (@cons R)); [unfold Rdiv; ring|]). reflexivity.
Qed.
Lemma dtlz5_ge n x : cube n x -> (2 <= n)%nat -> exists a b xm, x = a :: b :: xm /\ 0 <= a <= 1 /\ leqv (curve a) (dtlz5 n 3 x).
Proof.
  intros [Hl Hx] Hn. destruct x as [|a [|b xm]]; cbn [length] in Hl; try lia. inversion Hx; inversion H2; subst. exists a, b, xm. split; auto. split; auto.
  rewrite dtlz5_three. pose proof (g_sphere_nonneg xm) as Hg. destruct (theta_ge b (g_sphere xm) H5 Hg) as [T1 T2]. destruct (angle01 a H1) as [C S]. rewrite sin_PI4 in T1, T2. set (t := _ * PI / 2) in T1, T2 |- *. set (g := g_sphere xm) in *.
  assert (M : forall v, 1 / sqrt 2 <= (1 + g) * v -> cos (a * PI / 2) / sqrt 2 <= (1 + g) * (cos (a * PI / 2) * v)).
  { intros v Hv. replace (cos (a * PI / 2) / sqrt 2) with (cos (a * PI / 2) * (1 / sqrt 2)) by (unfold Rdiv; ring). replace ((1 + g) * (cos (a * PI / 2) * v)) with (cos (a * PI / 2) * ((1 + g) * v)) by ring. apply Rmult_le_compat_l; auto. }
  constructor; [apply M; auto|]. constructor; [apply M; auto|]. constructor; [|constructor]. rewrite <- (Rmult_1_l (sin (a * PI / 2))) at 1. apply Rmult_le_compat_r; lra.
Qed.
Theorem dtlz5_front n y : (2 <= n)%nat -> (attained (cube n) (dtlz5 n 3) y /\ optimal (cube n) (dtlz5 n 3) y <-> exists a, 0 <= a <= 1 /\ y = curve a).
Proof.
  intros Hn. assert (ROW : forall a, 0 <= a <= 1 -> cube n (pareto_row (n - 2) (/ 2) [a; 0]) /\ dtlz5 n 3 (pareto_row (n - 2) (/ 2) [a; 0]) = curve a).
  { intros a Ha. split; [apply (row_cube n [a; 0]); [apply Forall_cons; [lra|]; apply Forall_cons; [lra|apply Forall_nil]|simpl; lia]|]. unfold pareto_row. cbn [app]. apply dtlz5_row. intros c Hc. apply repeat_spec in Hc. auto. }
  split.
  - intros [(x & Hx & <-) Ho]. destruct (dtlz5_ge n x Hx Hn) as (a & b & xm & E & Ha & Hl). exists a. split; auto. destruct (ROW a Ha) as [C V].
    destruct (list_eq_dec Req_EM_T (curve a) (dtlz5 n 3 x)) as [|N]; auto. exfalso. apply (Ho _ C). rewrite V. split; auto.
  - intros (a & Ha & ->). destruct (ROW a Ha) as [C V]. split; [exists (pareto_row (n - 2) (/ 2) [a; 0]); auto|]. rewrite <- V.
    apply (pareto_sets n 3 _ ltac:(lia) ltac:(lia) C). intros c Hc. unfold pareto_row in Hc. cbn [Nat.sub app skipn] in Hc. apply repeat_spec in Hc. auto.
Qed.
(** with four objectives a vector off the curve is not below it *)
Theorem dtlz5_four : let x := [0; 1; 1; 0; 0; 0; 0] in cube 7 x /\
  forall u, length u = 3%nat -> Forall (fun a => 0 <= a <= 1) u -> ~ leqv (dtlz5 7 4 (pareto_row 4 (/ 2) u)) (dtlz5 7 4 x).
Proof.
  intros x. split; [split; [reflexivity|unfold x; repeat constructor; lra]|]. intros u Lu Hu Hl. destruct u as [|a [|b [|c [|]]]]; try discriminate. clear Lu. inversion Hu as [|? ? Ha _]; subst.
  assert (G1 : g_sphere [0; 0; 0; 0] = 1) by (unfold g_sphere, sumf; simpl; lra).
  assert (G0 : g_sphere (repeat (/ 2) 4) = 0) by (apply g_sphere_zero; intros d Hd; apply repeat_spec in Hd; auto).
  unfold dtlz5, dtlz_obj, x, pareto_row in Hl. cbn [Nat.sub firstn skipn app] in Hl. rewrite G1, G0 in Hl. unfold tr_degenerate, position in Hl. cbn [fst snd map rev app cumprod vmul] in Hl.
  inversion Hl as [|? ? ? ? L1 Hl1]; subst. inversion Hl1 as [|? ? ? ? _ Hl2]; subst. inversion Hl2 as [|? ? ? ? _ Hl3]; subst. inversion Hl3 as [|? ? ? ? L4 _]; subst.
  pose proof PI_RGT_0. replace (0 * PI / 2) with 0 in * by field. rewrite sin_0, cos_0 in *.
  assert (A0 : a = 0).
  { destruct (Req_dec a 0) as [|N]; auto. exfalso. assert (0 < a * PI <= 1 * PI) by (split; [apply Rmult_lt_0_compat; lra|apply Rmult_le_compat_r; lra]). pose proof (sin_gt_0 (a * PI / 2) ltac:(lra) ltac:(lra)). lra. }
  subst a. replace (0 * PI / 2) with 0 in L1 by field. rewrite cos_0 in L1.
  replace ((1 + 2 * 0 * b) / (2 * (1 + 0)) * PI / 2) with (PI / 4) in L1 by field. replace ((1 + 2 * 0 * c) / (2 * (1 + 0)) * PI / 2) with (PI / 4) in L1 by field.
  replace ((1 + 2 * 1 * 1) / (2 * (1 + 1)) * PI / 2) with (3 * (PI / 8)) in L1 by field.
  pose proof (cos_2a_cos (3 * (PI / 8))) as D. replace (2 * (3 * (PI / 8))) with (3 * (PI / 4)) in D by field. rewrite cos_3PI4 in D. rewrite cos_PI4 in L1.
  pose proof Rlt_sqrt2_0. pose proof (sqrt_def 2 ltac:(lra)) as Q. assert (Q2 : / sqrt 2 * / sqrt 2 = / 2) by (rewrite <- Rinv_mult; rewrite Q; auto).
  assert (I : 0 < / sqrt 2) by (apply Rinv_0_lt_compat; auto). assert (I2 : / 2 < / sqrt 2).
  { destruct (Rlt_le_dec (/ 2) (/ sqrt 2)) as [|Hle]; auto. exfalso. assert (/ sqrt 2 * / sqrt 2 <= / 2 * / 2) by (apply Rmult_le_compat; lra). lra. }
  unfold Rdiv in *. assert (L1' : / sqrt 2 * / sqrt 2 <= 2 * (cos (3 * (PI * / 8)) * cos (3 * (PI * / 8)))) by lra. rewrite Q2 in L1'. lra.
Qed.

(** * DTLZ6 with three objectives *)
Definition ang (b g : R) : R := (1 + 2 * g * b) / (2 * (1 + g)) * PI / 2.
Lemma cos_mono b g g' : 0 <= b <= 1 -> 0 <= g <= g' -> (1 + g) * cos (ang b g) <= (1 + g') * cos (ang b g').
Proof.
  intros Hb Hg. pose proof PI_RGT_0. assert (I : 0 < / (1 + g)) by (apply Rinv_0_lt_compat; lra). assert (I' : 0 < / (1 + g')) by (apply Rinv_0_lt_compat; lra).
  assert (II : / (1 + g') <= / (1 + g)) by (apply Rinv_le_contravar; lra).
  assert (B : forall v, 0 <= v -> 0 <= ang b v <= PI / 2). { intros v Hv. pose proof (theta01 b v Hb Hv) as [T1 T2]. unfold ang. set (t := (1 + 2 * v * b) / (2 * (1 + v))) in *.
    assert (0 <= t * PI <= 1 * PI) by (split; [apply Rmult_le_pos; lra|apply Rmult_le_compat_r; lra]). lra. }
  destruct (Rle_lt_dec b (/ 2)) as [Hh|Hh].
  - assert (E : forall v, 0 <= v -> ang b v = PI / 2 * b + PI / 4 * ((1 - 2 * b) * / (1 + v))) by (intros; unfold ang; field; lra).
    assert (M : (1 - 2 * b) * / (1 + g') <= (1 - 2 * b) * / (1 + g)) by (apply Rmult_le_compat_l; lra).
    assert (M' : PI / 4 * ((1 - 2 * b) * / (1 + g')) <= PI / 4 * ((1 - 2 * b) * / (1 + g))) by (apply Rmult_le_compat_l; lra).
    pose proof (B g ltac:(lra)) as B1. pose proof (B g' ltac:(lra)) as B2. assert (L : ang b g' <= ang b g) by (rewrite !E by lra; lra).
    assert (C : cos (ang b g) <= cos (ang b g')) by (apply cos_decr_1; lra). pose proof (cos_ge_0 (ang b g) ltac:(lra) ltac:(lra)). apply Rmult_le_compat; lra.
  - set (be := PI / 4 * (2 * b - 1)). set (ga := PI / 2 * (1 - b)). assert (Hbe : 0 <= be <= PI / 4). { unfold be. split; [apply Rmult_le_pos; lra|]. rewrite <- (Rmult_1_r (PI / 4)) at 2. apply Rmult_le_compat_l; lra. }
    assert (Hga : 0 <= ga <= PI / 4). { unfold ga. split; [apply Rmult_le_pos; lra|]. replace (PI / 4) with (PI / 2 * / 2) by field. apply Rmult_le_compat_l; lra. }
    assert (E : forall v, 0 <= v -> cos (ang b v) = sin ga * cos (be / (1 + v)) + cos ga * sin (be / (1 + v))).
    { intros v Hv. rewrite <- sin_plus. rewrite <- sin_shift. f_equal. unfold ang, be, ga. field. lra. }
    rewrite !E by lra. assert (Q : forall v, 0 <= v -> 0 <= be / (1 + v) <= PI / 4).
    { intros v Hv. assert (0 < / (1 + v)) by (apply Rinv_0_lt_compat; lra). split; [apply Rmult_le_pos; lra|]. apply (Rmult_le_reg_r (1 + v)); [lra|]. unfold Rdiv. rewrite (Rmult_assoc be), Rinv_l by lra.
      assert (0 <= PI * / 4 * v) by (apply Rmult_le_pos; lra). lra. }
    pose proof (Q g ltac:(lra)) as Q1. pose proof (Q g' ltac:(lra)) as Q2. assert (L : be / (1 + g') <= be / (1 + g)) by (apply Rmult_le_compat_l; lra).
    assert (C1 : cos (be / (1 + g)) <= cos (be / (1 + g'))) by (apply cos_decr_1; lra). pose proof (cos_ge_0 (be / (1 + g)) ltac:(lra) ltac:(lra)) as C0.
    pose proof (sin_ge_0 ga ltac:(lra) ltac:(lra)) as S0. pose proof (cos_ge_0 ga ltac:(lra) ltac:(lra)) as K0.
    assert (S1 : sin (be / (1 + g)) <= (1 + g') / (1 + g) * sin (be / (1 + g'))).
    { replace (be / (1 + g')) with (be / (1 + g) / ((1 + g') / (1 + g))) by (field; lra). apply sin_scale; [lra|]. apply (Rmult_le_reg_r (1 + g)); [lra|]. unfold Rdiv. rewrite Rmult_assoc, Rinv_l by lra. lra. }
    assert (S2 : (1 + g) * sin (be / (1 + g)) <= (1 + g') * sin (be / (1 + g'))).
    { replace ((1 + g') * sin (be / (1 + g'))) with ((1 + g) * ((1 + g') / (1 + g) * sin (be / (1 + g')))) by (field; lra). apply Rmult_le_compat_l; lra. }
    assert (C2 : (1 + g) * cos (be / (1 + g)) <= (1 + g') * cos (be / (1 + g'))) by (apply Rmult_le_compat; lra).
    apply (Rmult_le_compat_l (cos ga)) in S2; auto. apply (Rmult_le_compat_l (sin ga)) in C2; auto. lra.
Qed.
Lemma sin_mono b g g' : 0 <= b <= 1 -> 0 <= g <= g' -> (1 + g) * sin (ang b g) <= (1 + g') * sin (ang b g').
Proof.
  intros Hb Hg. assert (E : forall v, 0 <= v -> sin (ang b v) = cos (ang (1 - b) v)) by (intros v Hv; rewrite <- cos_shift; f_equal; unfold ang; field; lra).
  rewrite !E by lra. apply cos_mono; lra.
Qed.
Lemma dtlz6_three n a b xm : let g := g_root xm in
  dtlz6 n 3 (a :: b :: xm) = [(1 + g) * (cos (a * PI / 2) * cos (ang b g)); (1 + g) * (cos (a * PI / 2) * sin (ang b g)); (1 + g) * sin (a * PI / 2)].
Proof.
  intros g. unfold dtlz6, dtlz_obj. cbn [Nat.sub firstn skipn]. unfold tr_degenerate, position. cbn [fst snd map rev app cumprod vmul]. fold g. fold (ang b g).
  repeat (apply (f_equal2 (@cons R)); [ring|]). reflexivity.
Qed.
Lemma root_ge a : / 1000 <= Rpower (Rmax (Rabs a) (/ 10 ^ 30)) (/ 10) /\ (Rpower (Rmax (Rabs a) (/ 10 ^ 30)) (/ 10) = / 1000 <-> Rabs a <= / 10 ^ 30).
Proof.
  assert (P : 0 < / 10 ^ 30) by (apply Rinv_0_lt_compat; lra). replace (/ 1000) with (Rpower (/ 10 ^ 30) (/ 10)) by (rewrite root30; lra).
  split; [apply Rle_Rpower_l; [lra|]; split; auto; apply Rmax_r|]. split; intros H.
  - destruct (Rle_lt_dec (Rabs a) (/ 10 ^ 30)) as [|Hlt]; auto. exfalso. rewrite Rmax_left in H by lra.
    pose proof (Rlt_Rpower_l (/ 10 ^ 30) (Rabs a) (/ 10) ltac:(lra) (conj P Hlt)) as Q. rewrite H in Q. revert Q. apply Rlt_irrefl.
  - rewrite Rmax_right by auto. reflexivity.
Qed.
Lemma g_root_min xm : INR (length xm) * / 1000 <= g_root xm /\ (g_root xm = INR (length xm) * / 1000 <-> forall a, In a xm -> Rabs a <= / 10 ^ 30).
Proof.
  induction xm as [|a xm [I1 I2]]; [unfold g_root, sumf; simpl; split; [lra|]; split; [intros _ ? []|lra]|]. cbn [length]. rewrite S_INR.
  change (g_root (a :: xm)) with (Rpower (Rmax (Rabs a) (/ 10 ^ 30)) (/ 10) + g_root xm). destruct (root_ge a) as [R1 R2]. split; [lra|]. split.
  - intros E c [<-|Hc]; [apply R2; lra|]. apply (proj1 I2); auto. lra.
  - intros H. rewrite (proj2 R2), (proj2 I2); [lra|intros; apply H; right; auto|apply H; left; auto].
Qed.
Theorem dtlz6_exact n x : (2 <= n)%nat -> cube n x ->
  (optimal (cube n) (dtlz6 n 3) (dtlz6 n 3 x) <-> forall a, In a (skipn 2 x) -> a <= / 10 ^ 30).
Proof.
  intros Hn Hx. destruct (proj1 Hx). destruct x as [|a [|b xm]]; cbn [length] in *; try lia. assert (F : Forall (fun c => 0 <= c <= 1) (a :: b :: xm)) by apply Hx. inversion F as [|? ? Ha F1]; subst. inversion F1 as [|? ? Hb F2]; subst.
  set (N := S (S (length xm))) in *. cbn [skipn].
  assert (EQ : (forall c, In c xm -> c <= / 10 ^ 30) <-> g_root xm = INR (length xm) * / 1000).
  { rewrite (proj2 (g_root_min xm)). rewrite Forall_forall in F2. split; intros H c Hc; specialize (H c Hc); specialize (F2 c Hc); rewrite Rabs_right in * by lra; auto. }
  rewrite EQ. set (g0 := INR (length xm) * / 1000). assert (Hg0 : 0 <= g0) by (unfold g0; pose proof (pos_INR (length xm)); lra). split.
  - intros Ho. destruct (Req_dec (g_root xm) g0) as [|Ng]; auto. exfalso. pose proof (proj1 (g_root_min xm)) as Hge. fold g0 in Hge.
    set (x' := a :: b :: repeat 0 (length xm)). assert (C : cube N x').
    { split; [unfold x'; cbn [length]; rewrite repeat_length; auto|]. constructor; auto. constructor; auto. apply Forall_forall. intros c Hc. apply repeat_spec in Hc. subst. lra. }
    apply (Ho x' C). unfold x'. rewrite !dtlz6_three, (proj2 (C65_dtlz6_distance xm)). fold g0. destruct (angle01 a Ha) as [Ca Sa]. split.
    + pose proof (cos_mono b g0 (g_root xm) Hb ltac:(lra)) as M1. pose proof (sin_mono b g0 (g_root xm) Hb ltac:(lra)) as M2.
      apply (Rmult_le_compat_l _ _ _ Ca) in M1. apply (Rmult_le_compat_l _ _ _ Ca) in M2. constructor; [lra|]. constructor; [lra|]. constructor; [|constructor]. apply Rmult_le_compat_r; lra.
    + intros E. apply (f_equal sqnorm) in E. unfold sqnorm in E. cbn [fold_right] in E.
      assert (Z : forall g t, 0 <= g -> (1 + g) * (cos (a * PI / 2) * cos t) * ((1 + g) * (cos (a * PI / 2) * cos t)) + ((1 + g) * (cos (a * PI / 2) * sin t) * ((1 + g) * (cos (a * PI / 2) * sin t)) + ((1 + g) * sin (a * PI / 2) * ((1 + g) * sin (a * PI / 2)) + 0)) = (1 + g) * (1 + g)).
      { intros g t _. pose proof (sin2_cos2 t) as T. pose proof (sin2_cos2 (a * PI / 2)) as A. unfold Rsqr in *.
        transitivity ((1 + g) * (1 + g) * (cos (a * PI / 2) * cos (a * PI / 2) * (sin t * sin t + cos t * cos t) + sin (a * PI / 2) * sin (a * PI / 2))); [ring|]. rewrite T. replace (cos (a * PI / 2) * cos (a * PI / 2) * 1 + sin (a * PI / 2) * sin (a * PI / 2)) with 1 by lra. ring. }
      rewrite !Z in E by lra. assert (E' : (g_root xm - g0) * (2 + g0 + g_root xm) = 0) by lra. apply Rmult_integral in E'. lra.
  - intros E. apply sphere_optimal; auto; [apply trig_degen|]. intros x' Hx'. cbn [Nat.sub skipn]. rewrite E. split; auto. fold g0.
    pose proof (proj1 (g_root_min (skipn 2 x'))) as G. rewrite skipn_length in G. rewrite (proj1 Hx') in G. unfold N in G.
    replace (S (S (length xm)) - 2)%nat with (length xm) in G by lia. exact G.
Qed.
