(** The population step of DpN, the direction of preconditioned steps, and exactness on
    affine systems. *)
From Coq Require Import List Arith Bool Reals Lia Lra Psatz.
From Verif Require Import Num Exn ListAux MiscModel MiscProof PrecondProof StateModel NewtonModel RefModel RefProof HVXModel HVXProof StepModel StepSpec StepProof StepTop StepMain StepDpn.
Import ListNotations.
Open Scope R_scope.

(** R = 0 says: every Lagrangian is stationary and every active constraint vanishes *)
Lemma is_R_zero d nc ps Rm : is_R d nc ps Rm ->
  (forall i j, ent Rm i j = 0) <->
  (forall i p, nth_error ps i = Some p -> (forall a, (a < d)%nat -> lagrangian nc p a = 0) /\
     (forall k, (k < nc)%nat -> nth k (pt_act p) false = true -> nth k (pt_cval p) 0 = 0)).
Proof.
  intros [[M1 M2] H]. split.
  - intros Hz i p Ep. destruct (H i p Ep) as [H1 H2]. split.
    + intros a Ha. rewrite <- H1 by auto. apply Hz.
    + intros k Hk Hac. specialize (H2 k Hk). rewrite Hac in H2. rewrite <- H2. apply Hz.
  - intros HK i j. unfold ent. destruct (nth_error ps i) as [p|] eqn:Ep.
    + destruct (nth_error_nth' ps i p p Ep) as [Hi _]. destruct (Nat.lt_ge_cases j (d + nc)) as [Hj|Hj].
      * destruct (H i p Ep) as [H1 H2]. destruct (HK i p Ep) as [K1 K2]. fold (ent Rm i j). destruct (Nat.lt_ge_cases j d) as [Hd|Hd].
        -- rewrite H1, K1 by auto. auto.
        -- replace j with (d + (j - d))%nat by lia. rewrite H2 by lia. destruct (nth (j - d) (pt_act p) false) eqn:E; auto. apply K2; auto. lia.
      * apply nth_overflow. rewrite M2; auto. apply nth_In. lia.
    + apply nth_error_None in Ep. rewrite (nth_overflow Rm) by lia. destruct j; auto.
Qed.

Section Last.
Variable solve : list (list R) -> list R -> option (list R).
Variable lstsq : list (list R) -> list R -> list R.
Variable chol : nat -> (nat -> nat -> R) -> option (nat -> nat -> R).
Hypothesis Hsolve : solve_ok solve.
Hypothesis Hlstsq : lstsq_ok lstsq.

Lemma mapM_exists {A B} (f : A -> res B) (P : A -> B -> Prop) l : (forall a, In a l -> exists b, f a = Ok b /\ P a b) ->
  exists bs, RefModel.mapM f l = Ok bs /\ length bs = length l /\ forall i a b, nth_error l i = Some a -> nth_error bs i = Some b -> P a b.
Proof.
  induction l as [|a l IH]; intros H.
  - exists []. repeat split; auto. intros [|i] a b E; discriminate.
  - destruct (H a ltac:(simpl; auto)) as (b & E & Hp). destruct IH as (bs & E2 & L & HP); [intros; apply H; simpl; auto|].
    exists (b :: bs). simpl. rewrite E. cbn [bind]. rewrite E2. cbn [bind]. split; auto. split; [simpl; auto|].
    intros [|i] a' b' Ea Eb; simpl in *; [congruence|]. eapply HP; eauto.
Qed.

Lemma ent_map {A} (f : A -> list R) l i j a : nth_error l i = Some a -> ent (map f l) i j = nth j (f a) 0.
Proof. intros E. unfold ent. destruct (nth_error_nth' l i a a E) as [Hi Ea]. rewrite (nth_map_default _ _ _ a), Ea by auto. reflexivity. Qed.

Lemma dpn_constrained d nc pre Hs ps : length Hs = length ps -> (forall H, In H Hs -> matrix d d H) -> (forall p, In p ps -> shaped d nc p) ->
  exists st Rm, dpn_step solve lstsq chol d nc true pre Hs ps = Ok (st, Rm) /\ matrix (length ps) (d + nc) st /\ is_R d nc ps Rm /\ inactive_zero d nc ps st /\
  forall r H p, nth_error Hs r = Some H -> nth_error ps r = Some p ->
    (exists s', length s' = (d + nc)%nat /\ linear_kkt true d nc (dpn_A chol pre H) [p] [s']) ->
    linear_kkt true d nc (dpn_A chol pre H) [p] [nth r st []].
Proof.
  intros HL HH Hps. unfold dpn_step. rewrite HL, Nat.eqb_refl.
  destruct (mapM_exists (fun hp => dpn_point solve lstsq chol d nc true pre (fst hp) (snd hp))
    (fun hp sr => length (fst sr) = (d + nc)%nat /\ is_R d nc [snd hp] [snd sr] /\ inactive_zero d nc [snd hp] [fst sr] /\
      ((exists s', length s' = (d + nc)%nat /\ linear_kkt true d nc (dpn_A chol pre (fst hp)) [snd hp] [s']) -> linear_kkt true d nc (dpn_A chol pre (fst hp)) [snd hp] [fst sr]))
    (combine Hs ps)) as (rs & E & L & HP).
  { intros [H p] Hin. apply in_combine_l in Hin as Hh. apply in_combine_r in Hin as Hp. cbn [fst snd].
    destruct (dpn_point_constrained solve lstsq chol Hsolve Hlstsq d nc pre H p (HH H Hh) (Hps p Hp)) as (s & r & E & Hrest). exists (s, r). cbn [fst snd]. auto. }
  rewrite E. cbn [bind]. rewrite combine_length, HL, Nat.min_id in L. exists (map fst rs), (map snd rs). split; auto.
  assert (Get : forall i p, nth_error ps i = Some p -> exists H s r, nth_error Hs i = Some H /\ nth_error rs i = Some (s, r) /\ length s = (d + nc)%nat /\ is_R d nc [p] [r] /\
    inactive_zero d nc [p] [s] /\ ((exists s', length s' = (d + nc)%nat /\ linear_kkt true d nc (dpn_A chol pre H) [p] [s']) -> linear_kkt true d nc (dpn_A chol pre H) [p] [s])).
  { intros i p Ep. destruct (nth_error_nth' ps i p p Ep) as [Hi Epp]. destruct (nth_error Hs i) as [H|] eqn:EH; [|apply nth_error_None in EH; lia].
    destruct (nth_error rs i) as [[s r]|] eqn:Er; [|apply nth_error_None in Er; lia].
    assert (Ec : nth_error (combine Hs ps) i = Some (H, p)).
    { clear -EH Ep. revert i ps EH Ep. induction Hs as [|h l IH]; intros [|i] [|q l'] EH Ep; simpl in *; try discriminate; [congruence|]. eapply IH; eauto. }
    specialize (HP i (H, p) (s, r) Ec Er). cbn [fst snd] in HP. exists H, s, r. tauto. }
  split; [|split; [|split]].
  - split; [rewrite map_length; auto|]. intros s Hsin. apply in_map_iff in Hsin as ([s' r] & <- & Hin). apply (In_nth_error rs) in Hin as (i & Ei).
    destruct (nth_error ps i) as [p|] eqn:Ep; [|apply nth_error_None in Ep; assert (i < length rs)%nat by (apply nth_error_Some; congruence); lia].
    destruct (Get i p Ep) as (H & s2 & r2 & _ & E2 & L2 & _). rewrite Ei in E2. injection E2 as <- <-. exact L2.
  - split.
    + split; [rewrite map_length; auto|]. intros s Hsin. apply in_map_iff in Hsin as ([s' r] & <- & Hin). apply (In_nth_error rs) in Hin as (i & Ei).
      destruct (nth_error ps i) as [p|] eqn:Ep; [|apply nth_error_None in Ep; assert (i < length rs)%nat by (apply nth_error_Some; congruence); lia].
      destruct (Get i p Ep) as (H & s2 & r2 & _ & E2 & _ & [[_ M] _] & _). rewrite Ei in E2. injection E2 as <- <-. apply M. simpl. auto.
    + intros i p Ep. destruct (Get i p Ep) as (H & s & r & _ & Er & _ & [_ HR] & _). destruct (HR 0%nat p eq_refl) as [R1 R2].
      assert (Ee : forall j, ent (map snd rs) i j = ent [r] 0 j) by (intros j; rewrite (ent_map snd rs i j (s, r) Er); reflexivity).
      split; intros; rewrite Ee; auto.
  - intros i p k Ep Hk Hz. destruct (Get i p Ep) as (H & s & r & _ & Er & _ & _ & HZ & _). rewrite (ent_map fst rs i (d + k) (s, r) Er). apply (HZ 0%nat p k); auto.
  - intros r H p EH Ep Hex. destruct (Get r p Ep) as (H' & s & r' & EH' & Er & _ & _ & _ & HK). rewrite EH in EH'. injection EH' as <-.
    assert (Es : nth r (map fst rs) [] = s).
    { destruct (nth_error_nth' rs r _ (s, r') Er) as [Hi E2]. rewrite (nth_map_default _ _ _ (s, r')), E2 by auto. reflexivity. }
    rewrite Es. auto.
Qed.

(** * direction of the preconditioned unconstrained step *)
Definition zero_vec (b : list R) : Prop := forall i, nth i b 0 = 0.
Lemma zero_or b n : length b = n -> (forall i, (i < n)%nat -> nth i b 0 = 0) \/ (exists i, (i < n)%nat /\ nth i b 0 <> 0).
Proof.
  intros H. destruct (Classical_Prop.classic (exists i, (i < n)%nat /\ nth i b 0 <> 0)) as [|Hn]; auto. left. intros i Hi.
  destruct (Req_EM_T (nth i b 0) 0); auto. exfalso. eauto.
Qed.
Lemma descent n A b : matrix n n A -> length b = n -> posdef n (ent A) -> let x := newton_dir solve lstsq A b in
  length x = n /\ (zero_vec b -> zero_vec x) /\ (~ zero_vec b -> dotR b x < 0).
Proof.
  intros HA Hb HP x. destruct (newton_dir_sign solve lstsq Hsolve Hlstsq n A b HA Hb (posdef_definite n A HA HP) (zero_or b n Hb)) as (L & E & H1 & H2). fold x in L, E, H1, H2.
  split; auto. split; [intros Hz; red; apply H1; intros; apply Hz|]. intros Hn. destruct (zero_or b n Hb) as [Hz|Hex].
  - exfalso. apply Hn. intros i. destruct (Nat.lt_ge_cases i n); auto. apply nth_overflow. lia.
  - rewrite E, (quad_mv n) by auto. specialize (HP (fun i => nth i x 0) (H2 Hex)). lra.
Qed.
Lemma ascent n A b : matrix n n A -> length b = n -> posdef n (ent (mneg A)) -> let x := newton_dir solve lstsq A b in
  length x = n /\ (zero_vec b -> zero_vec x) /\ (~ zero_vec b -> 0 < dotR b x).
Proof.
  intros HA Hb HP x. destruct (newton_dir_sign solve lstsq Hsolve Hlstsq n A b HA Hb (negdef_definite n A HA HP) (zero_or b n Hb)) as (L & E & H1 & H2). fold x in L, E, H1, H2.
  split; auto. split; [intros Hz; red; apply H1; intros; apply Hz|]. intros Hn. destruct (zero_or b n Hb) as [Hz|Hex].
  - exfalso. apply Hn. intros i. destruct (Nat.lt_ge_cases i n); auto. apply nth_overflow. lia.
  - rewrite E, (quad_mv n) by auto. specialize (HP (fun i => nth i x 0) (H2 Hex)). rewrite mneg_quad in HP. lra.
Qed.
Lemma precond_pos n A : matrix n n A -> chol_ok n (chol n) -> chol_complete n (chol n) -> symm n (ent A) ->
  (exists c, c <= beta * 2 ^ 43 /\ posdef n (shift (ent A) c)) -> posdef n (ent (precond chol A)).
Proof.
  intros HA Hok Hco Hs Hc x Hx. rewrite (quad_ext n _ (precondition_hessian n (chol n) (ent A))).
  - apply (precond_complete n (chol n) Hok (ent A) Hs Hco Hc); auto.
  - intros i j Hi Hj. apply precond_ent; auto. apply HA.
Qed.

(** inner product of the gradient of the indicator and the step *)
Definition slope (d : nat) (ps : list pt) (st : list (list R)) : R :=
  sumn (length ps) (fun i => sumn d (fun a => nth a (nth i (map pt_grad ps) []) 0 * ent st i a)).
Lemma slope_dot d ps st : (forall p, In p ps -> length (pt_grad p) = d) -> matrix (length ps) d st -> slope d ps st = dotR (concat (map pt_grad ps)) (concat st).
Proof.
  intros Hps [S1 S2]. assert (Hg : forall r, In r (map pt_grad ps) -> length r = d) by (intros r Hr; apply in_map_iff in Hr as (p & <- & Hp); auto).
  rewrite (dotR_sumn (length ps * d)) by (rewrite (concat_length d) by auto; rewrite ?map_length, ?S1; auto). rewrite sumn_block. unfold slope. apply sumn_ext. intros i Hi.
  apply sumn_ext. intros a Ha. rewrite !nth_concat by (auto; rewrite ?map_length; lia). reflexivity.
Qed.
Definition all_zero (M : list (list R)) : Prop := forall i j, ent M i j = 0.
Lemma all_zero_concat N d M : matrix N d M -> zero_vec (concat M) <-> all_zero M.
Proof.
  intros [M1 M2]. split.
  - intros Hz i j. unfold ent. destruct (Nat.lt_ge_cases i N) as [Hi|Hi]; [|rewrite (nth_overflow M) by lia; destruct j; auto].
    destruct (Nat.lt_ge_cases j d) as [Hj|Hj]; [|apply nth_overflow; rewrite M2; auto; apply nth_In; lia].
    rewrite <- (nth_concat d M i j) by (auto; lia). apply Hz.
  - intros Hz k. destruct (Nat.lt_ge_cases k (N * d)) as [Hk|Hk]; [|apply nth_overflow; rewrite (concat_length d), M1 by auto; auto].
    assert (d <> 0)%nat by (intros ->; lia). rewrite (Nat.div_mod k d), (Nat.mul_comm d) by auto.
    rewrite nth_concat; auto; [apply Hz|rewrite M1; apply Nat.div_lt_upper_bound; lia|apply Nat.mod_upper_bound; auto].
Qed.
Lemma grads_matrix d ps : (forall p, In p ps -> length (pt_grad p) = d) -> matrix (length ps) d (map pt_grad ps).
Proof. intros H. split; [apply map_length|]. intros r Hr. apply in_map_iff in Hr as (p & <- & Hp). auto. Qed.
End Last.

(** * exactness on affine systems *)
(** the data after the full step when the gradient of the indicator and the constraints are
    affine and the active set does not change *)
Definition affine_after (d nc : nat) (A st : list (list R)) (ps ps' : list pt) : Prop :=
  length ps' = length ps /\
  forall i p q, nth_error ps i = Some p -> nth_error ps' i = Some q ->
    pt_act q = pt_act p /\
    (forall a, (a < d)%nat -> nth a (pt_grad q) 0 = nth a (pt_grad p) 0 + sumn (length ps) (fun j => sumn d (fun b => ent A (i * d + a) (j * d + b) * ent st j b))) /\
    (forall k, (k < nc)%nat -> nth k (pt_dual q) 0 = nth k (pt_dual p) 0 + ent st i (d + k)) /\
    (forall k, (k < nc)%nat -> nth k (pt_cval q) 0 = nth k (pt_cval p) 0 + sumn d (fun a => ent (pt_D p) k a * ent st i a)) /\
    (forall k a, (k < nc)%nat -> (a < d)%nat -> ent (pt_D q) k a = ent (pt_D p) k a).
Lemma affine_zero d nc A st ps ps' : linear_kkt false d nc A ps st -> affine_after d nc A st ps ps' ->
  forall i q, nth_error ps' i = Some q -> (forall a, (a < d)%nat -> lagrangian nc q a = 0) /\
     (forall k, (k < nc)%nat -> nth k (pt_act q) false = true -> nth k (pt_cval q) 0 = 0).
Proof.
  intros HK [HL HA] i q Eq. destruct (nth_error ps i) as [p|] eqn:Ep.
  2:{ apply nth_error_None in Ep. assert (i < length ps')%nat by (apply nth_error_Some; congruence). lia. }
  destruct (HA i p q Ep Eq) as (E1 & E2 & E3 & E4 & E5). destruct (HK i p Ep) as [K1 K2]. split.
  - intros a Ha. specialize (K1 a Ha). unfold lagrangian in *. rewrite E2 by auto.
    assert (Es : asum nc q (fun k => nth k (pt_dual q) 0 * ent (pt_D q) k a) =
      asum nc p (fun k => nth k (pt_dual p) 0 * ent (pt_D p) k a) + asum nc p (fun k => ent st i (d + k) * ent (pt_D p) k a)).
    { unfold asum. rewrite E1. clear -E3 E5 Ha. induction nc as [|m IH]; simpl; [ring|]. rewrite IH by (intros; auto).
      rewrite E3, E5 by auto. destruct (nth m (pt_act p) false); ring. }
    rewrite Es. lra.
  - intros k Hk Hac. rewrite E1 in Hac. rewrite E4 by auto. rewrite (K2 k Hk Hac). ring.
Qed.
(** without curvature the two linearisations coincide *)
Lemma kkt_curv d nc A ps st : (forall p k a b, In p ps -> (k < nc)%nat -> nth k (pt_act p) false = true -> curvature p k a b = 0) ->
  linear_kkt false d nc A ps st <-> linear_kkt true d nc A ps st.
Proof.
  intros HC. assert (E : forall i p a, nth_error ps i = Some p -> asum nc p (fun k => nth k (pt_dual p) 0 * sumn d (fun b => curvature p k a b * ent st i b)) = 0).
  { intros i p a Ep. apply sumn_zero. intros k Hk. destruct (nth k (pt_act p) false) eqn:Ea; auto. rewrite sumn_zero; [ring|]. intros b Hb.
    rewrite HC; auto; [ring|]. eapply nth_error_In; eauto. }
  split; intros HK i p Ep; destruct (HK i p Ep) as [K1 K2]; split; auto; intros a Ha; specialize (K1 a Ha); rewrite (E i p a Ep) in *; lra.
Qed.

(** * fixed points *)
Definition kkt_point (d nc : nat) (ps : list pt) : Prop :=
  forall i p, nth_error ps i = Some p -> (forall a, (a < d)%nat -> lagrangian nc p a = 0) /\
     (forall k, (k < nc)%nat -> nth k (pt_act p) false = true -> nth k (pt_cval p) 0 = 0).
Lemma zero_kkt curv d nc A ps st : all_zero st -> linear_kkt curv d nc A ps st <-> kkt_point d nc ps.
Proof.
  intros Hz.
  assert (E1 : forall i a, sumn (length ps) (fun j => sumn d (fun b => ent A (i * d + a) (j * d + b) * ent st j b)) = 0).
  { intros i a. apply sumn_zero. intros j Hj. apply sumn_zero. intros b Hb. rewrite Hz. ring. }
  assert (E2 : forall i p a, asum nc p (fun k => nth k (pt_dual p) 0 * sumn d (fun b => curvature p k a b * ent st i b)) = 0).
  { intros i p a. apply sumn_zero. intros k Hk. destruct (nth k (pt_act p) false); auto. rewrite (sumn_zero d); [ring|]. intros b Hb. rewrite Hz. ring. }
  assert (E3 : forall i p a, asum nc p (fun k => ent st i (d + k) * ent (pt_D p) k a) = 0).
  { intros i p a. apply sumn_zero. intros k Hk. destruct (nth k (pt_act p) false); auto. rewrite Hz. ring. }
  assert (E4 : forall i (p : pt) k, sumn d (fun a => ent (pt_D p) k a * ent st i a) = 0).
  { intros i p k. apply sumn_zero. intros a Ha. rewrite Hz. ring. }
  split; intros HK i p Ep; destruct (HK i p Ep) as [K1 K2]; split.
  - intros a Ha. specialize (K1 a Ha). rewrite E1, E2, E3 in K1. destruct curv; lra.
  - intros k Hk Hac. specialize (K2 k Hk Hac). rewrite E4 in K2. lra.
  - intros a Ha. rewrite E1, E2, E3, K1 by auto. destruct curv; ring.
  - intros k Hk Hac. rewrite E4, K2 by auto. ring.
Qed.
Definition zeros (N w : nat) : list (list R) := repeat (repeat 0 w) N.
Lemma nth_repeat0 w j : nth j (repeat 0 w) 0 = 0.
Proof. revert j. induction w; intros [|j]; simpl; auto. Qed.
Lemma zeros_zero N w : all_zero (zeros N w).
Proof.
  intros i j. unfold ent, zeros. destruct (Nat.lt_ge_cases i N).
  - rewrite (nth_indep _ _ (repeat 0 w)) by (rewrite repeat_length; auto). rewrite nth_repeat. apply nth_repeat0.
  - rewrite (nth_overflow (repeat _ _)) by (rewrite repeat_length; auto). destruct j; auto.
Qed.
Lemma zeros_matrix N w : matrix N w (zeros N w).
Proof. split; [apply repeat_length|]. intros r Hr. apply repeat_spec in Hr. subst. apply repeat_length. Qed.
(** the linearised conditions determine the step *)
Definition determined (curv : bool) (d nc : nat) (A : list (list R)) (ps : list pt) : Prop :=
  forall st st', matrix (length ps) (d + nc) st -> matrix (length ps) (d + nc) st' ->
    linear_kkt curv d nc A ps st -> linear_kkt curv d nc A ps st' ->
    inactive_zero d nc ps st -> inactive_zero d nc ps st' -> forall i j, ent st i j = ent st' i j.
Lemma fixed_point curv d nc A ps st : determined curv d nc A ps -> matrix (length ps) (d + nc) st -> inactive_zero d nc ps st ->
  ((exists st', matrix (length ps) (d + nc) st' /\ linear_kkt curv d nc A ps st') -> linear_kkt curv d nc A ps st) ->
  kkt_point d nc ps -> all_zero st.
Proof.
  intros HD HM HI HS HK i j. pose proof (zeros_zero (length ps) (d + nc)) as HZ. pose proof (zeros_matrix (length ps) (d + nc)) as HZM.
  assert (HL : linear_kkt curv d nc A ps (zeros (length ps) (d + nc))) by (apply zero_kkt; auto).
  rewrite (HD st (zeros (length ps) (d + nc)) HM HZM (HS (ex_intro _ _ (conj HZM HL))) HL HI); [apply HZ|]. intros ? ? ? ? ? ?; apply HZ.
Qed.

(** * the population step of DpN without constraints, and its direction *)
Section Last2.
Variable solve : list (list R) -> list R -> option (list R).
Variable lstsq : list (list R) -> list R -> list R.
Variable chol : nat -> (nat -> nat -> R) -> option (nat -> nat -> R).
Hypothesis Hsolve : solve_ok solve.
Hypothesis Hlstsq : lstsq_ok lstsq.
Lemma dpn_unconstrained d nc pre Hs ps : length Hs = length ps -> (forall H, In H Hs -> matrix d d H) -> (forall p, In p ps -> length (pt_grad p) = d) ->
  exists st, dpn_step solve lstsq chol d nc false pre Hs ps = Ok (st, map pt_grad ps) /\ matrix (length ps) d st /\
  forall r H p, nth_error Hs r = Some H -> nth_error ps r = Some p -> nth r st [] = newton_dir solve lstsq (dpn_A chol pre H) (pt_grad p).
Proof.
  intros HL HH Hps. unfold dpn_step. rewrite HL, Nat.eqb_refl.
  assert (E : forall Hs ps, length Hs = length ps -> (forall H, In H Hs -> matrix d d H) -> (forall p, In p ps -> length (pt_grad p) = d) ->
    RefModel.mapM (fun hp => dpn_point solve lstsq chol d nc false pre (fst hp) (snd hp)) (combine Hs ps) =
    Ok (map (fun hp => (newton_dir solve lstsq (dpn_A chol pre (fst hp)) (pt_grad (snd hp)), pt_grad (snd hp))) (combine Hs ps))).
  { clear -Hsolve Hlstsq. induction Hs as [|h l IH]; intros [|p ps] L HH Hps; try discriminate; auto. cbn [combine RefModel.mapM map fst snd].
    rewrite (dpn_point_unconstrained solve lstsq chol Hsolve Hlstsq) by (simpl in *; auto). cbn [bind]. rewrite IH by (simpl in *; auto; lia). reflexivity. }
  rewrite E by auto. cbn [bind]. rewrite !map_map. cbn [fst snd].
  exists (map (fun hp => newton_dir solve lstsq (dpn_A chol pre (fst hp)) (pt_grad (snd hp))) (combine Hs ps)). split; [|split].
  - f_equal. f_equal. clear -HL. revert ps HL. induction Hs as [|h l IH]; intros [|p ps] HL; simpl in *; try discriminate; auto. f_equal. apply IH. lia.
  - split; [rewrite map_length, combine_length; lia|]. intros r Hr. apply in_map_iff in Hr as ([H p] & <- & Hin). cbn [fst snd].
    apply newton_dir_length; auto; [apply dpn_A_matrix; apply HH; eapply in_combine_l; eauto|apply Hps; eapply in_combine_r; eauto].
  - intros r H p EH Ep.
    assert (Ec : nth_error (combine Hs ps) r = Some (H, p)).
    { clear -EH Ep. revert r ps EH Ep. induction Hs as [|h l IH]; intros [|i] [|q l'] EH Ep; simpl in *; try discriminate; [congruence|]. eapply IH; eauto. }
    destruct (nth_error_nth' _ r _ (H, p) Ec) as [Hi E2]. rewrite (nth_map_default _ _ _ (H, p)), E2 by auto. reflexivity.
Qed.
End Last2.

(** * the layers of HVN.iterate *)
From Verif Require Import NDSTop NewtonPop StepIter.
Lemma layers_flat (d : list (nat * list nat)) n : (forall k l, In (k, l) d -> NoDup l /\ forall i, In i l -> (i < n)%nat) -> NoDup (map fst d) ->
  (forall i, (i < n)%nat -> exists k l, In (k, l) d /\ In i l /\ forall k' l', In (k', l') d -> In i l' -> k' = k /\ l' = l) ->
  NoDup (concat (map snd d)) /\ forall i, (i < n)%nat -> In i (concat (map snd d)).
Proof.
  intros H1 H2 H3. split.
  - assert (Hu : forall i k l k' l', In (k, l) d -> In (k', l') d -> In i l -> In i l' -> k = k').
    { intros i k l k' l' A B Ci D. destruct (H1 k l A) as [_ Hb]. destruct (H3 i (Hb i Ci)) as (k0 & l0 & _ & _ & U). destruct (U k l A Ci), (U k' l' B D). congruence. }
    clear H3. induction d as [|[k l] d IH]; simpl; [constructor|]. inversion H2 as [|? ? H4 H5]; subst.
    assert (HN : NoDup (concat (map snd d))) by (apply IH; auto; intros; [eapply H1; simpl; eauto|eapply Hu; simpl; eauto]).
    destruct (H1 k l ltac:(simpl; auto)) as [Hl _]. clear -Hl HN Hu H4.
    assert (Hd : forall i, In i l -> ~ In i (concat (map snd d))).
    { intros i Hi Hc. apply in_concat in Hc as (l' & Hl' & Hil'). apply in_map_iff in Hl' as ([k' l''] & E & Hin). simpl in E. subst l''.
      assert (k = k') by (eapply (Hu i); simpl; eauto). subst. apply H4. apply (in_map fst) in Hin. exact Hin. }
    clear Hu H4. induction l as [|a l IHl]; simpl; auto. inversion Hl; subst. constructor.
    + rewrite in_app_iff. intros [Hc|Hc]; [auto|]. apply (Hd a); simpl; auto.
    + apply IHl; auto. intros i Hi. apply Hd. simpl; auto.
  - intros i Hi. destruct (H3 i Hi) as (k & l & Hin & Hil & _). apply in_concat. exists l. split; auto. apply (in_map snd) in Hin. exact Hin.
Qed.

Lemma hvn_layers_keys feasible Y m d : length feasible = length Y -> (2 <= m)%nat -> (forall y, In y Y -> length y = m) ->
  NewtonModel.hvn_layers feasible Y = Ok d -> exists q, map fst d = seq 0 q.
Proof.
  intros HL Hm HY. unfold hvn_layers. destruct (positions_of true feasible) as [|f0 fr] eqn:Efi.
  - intros E. injection E as <-. exists 1%nat. reflexivity.
  - rewrite <- Efi. set (P := map (fun i => nth i Y []) (positions_of true feasible)).
    destruct (nds_idx_correct P m) as (dd & Ed & (q & Hq) & _); auto.
    { unfold P. rewrite Efi. discriminate. }
    { intros p Hp. unfold P in Hp. apply in_map_iff in Hp as (i & <- & Hi). apply HY, nth_In. rewrite <- HL. apply positions_of_true in Hi.
      destruct (Nat.lt_ge_cases i (length feasible)); auto. rewrite nth_overflow in Hi by auto. discriminate. }
    rewrite Ed. cbn [bind]. destruct (get0 _) as [l0|]; cbn [bind]; [|discriminate]. intros E. injection E as <-. exists q. rewrite <- Hq.
    unfold put0. rewrite !map_map. apply map_ext. intros [k v]. cbn [fst snd]. destruct (Nat.eqb_spec k 0); auto.
Qed.
