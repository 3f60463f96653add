From Coq Require Import List Arith Bool Lia Reals Lra Psatz.
From Verif Require Import ListAux ProbModel NewtonModel BenchModel BenchSpec BenchBase BenchTrig BenchUF BenchUF3.
Import ListNotations.
Open Scope R_scope.

(** the feasible points of CF8-CF10 *)
Definition con_ratio (B : list R -> Prop) (f : list R -> option (list R)) (g : list R -> option R) (x : list R) : Prop :=
  B x /\ exists v c, f x = Some v /\ g v = Some c /\ c <= 0.
(** the arcs of the sphere with a share [k] in [K] of the first two objectives; without the pole *)
Definition arcs (K : R -> Prop) (u : list R) : Prop :=
  exists k z, K k /\ 0 <= z < 1 /\ u = [sqrt (k * (1 - z * z)); sqrt ((1 - k) * (1 - z * z)); z].
Lemma arcs_octant (K : R -> Prop) u : (forall k, K k -> 0 <= k <= 1) -> arcs K u -> octant u.
Proof.
  intros HK (k & z & Hk & Hz & ->). apply HK in Hk. assert (0 <= 1 - z * z) by nra. do 3 eexists. split; [reflexivity|].
  split; [apply sqrt_pos|]. split; [apply sqrt_pos|]. split; [apply Hz|]. rewrite !sqrt_sqrt by (apply Rmult_le_pos; lra). ring.
Qed.
Section Ratio.
  Variables (n : nat) (bd : R) (f : R -> R) (obj : list R -> option (list R)) (h : R -> R) (K : R -> Prop).
  Hypothesis Hn : (5 <= n)%nat.
  Hypothesis Hbd : 2 <= bd.
  Hypothesis Hf : forall a, 0 <= f a.
  Hypothesis Hf0 : f 0 = 0.
  Hypothesis Hobj : forall x, in_box n 2 0 1 (- bd) bd x -> obj x = sphere3 n f x.
  Hypothesis HK : forall k, K k -> 0 <= k <= 1.
  Hypotheses (K0 : K 0) (K1 : K 1).
  Hypothesis Hh : forall k, K k -> h (4 * PI * k) <= 0.
  Hypothesis Hh0 : 0 <= h (2 * PI).
  Hypothesis Hbetween : forall a b, 0 <= a -> 0 <= b -> 0 <= a + b - 1 -> h (2 * PI * (a - b + 1)) <= a + b - 1 -> exists k, K k /\ 1 - b <= k <= a.
  Let F := con_ratio (in_box n 2 0 1 (- bd) bd) obj (ratio_con h).
  Lemma sqrt_le_sq a b : 0 <= b -> a <= b * b -> sqrt a <= b.
  Proof. intros Hb H. rewrite <- (sqrt_square b) by auto. apply sqrt_le_1_alt. auto. Qed.
  Lemma ratio_front : front F obj (arcs K).
  Proof.
    apply front_intro.
    - intros x (Hx & v & c & Ev & Ec & Hc). exists v. split; auto. rewrite Hobj in Ev by auto.
      destruct (in_box_first _ _ _ _ _ _ x 0 Hx ltac:(lia) ltac:(lia)) as (_ & H0). destruct (in_box_first _ _ _ _ _ _ x 1 Hx ltac:(lia) ltac:(lia)) as (_ & H1).
      destruct (sphere3_value n f x Hn Hf (proj1 Hx)) as (p1 & p2 & p3 & G1 & G2 & G3 & E). 
      pose proof (sphere_pt_octant _ _ H0 H1) as Ho. destruct Ho as (a & b & z & Es & Ha & Hb & Hz & Hsum). rewrite Es in E. cbn [zip_with combine map fst snd] in E. rewrite E in Ev. injection Ev as <-.
      set (A := a + p1) in *. set (B := b + p2) in *. set (Z := z + p3) in *. unfold ratio_con in Ec. cbv zeta in Ec. cbn [nth] in Ec.
      assert (HA : a <= A) by (unfold A; lra). assert (HB : b <= B) by (unfold B; lra). assert (HZ : z <= Z) by (unfold Z; lra). clearbody A B Z. unfold sq in Ec.
      destruct (reqb (1 - Z * Z) 0) eqn:Ed; [discriminate|]. apply reqb_false in Ed. injection Ec as <-. set (d := 1 - Z * Z) in *.
      destruct (Rlt_dec 0 d) as [Hd|Hd].
      + assert (HZ1 : Z < 1) by (unfold d in Hd; nra). set (al := A * A / d) in *. set (be := B * B / d) in *.
        assert (Eal : al * d = A * A) by (unfold al; field; lra). assert (Ebe : be * d = B * B) by (unfold be; field; lra).
        assert (Pal : 0 <= al) by (apply Rmult_le_pos; [nra|apply Rlt_le, Rinv_0_lt_compat; auto]). assert (Pbe : 0 <= be) by (apply Rmult_le_pos; [nra|apply Rlt_le, Rinv_0_lt_compat; auto]).
        replace ((A * A + B * B) / d) with (al + be) in Hc by (unfold al, be; field; lra). replace ((A * A - B * B) / d) with (al - be) in Hc by (unfold al, be; field; lra).
        assert (Hs : 0 <= al + be - 1). { apply Rmult_le_reg_r with d; auto. replace ((al + be - 1) * d) with (A * A + B * B - d) by (rewrite <- Eal, <- Ebe; ring). unfold d. nra. }
        destruct (Hbetween al be Pal Pbe Hs ltac:(lra)) as (k & Hk & Hk2). pose proof (HK k Hk) as Hku.
        exists [sqrt (k * d); sqrt ((1 - k) * d); Z]. split; [exists k, Z; repeat split; auto; lra|]. apply wdom3. repeat split; [| |lra].
        * apply sqrt_le_sq; [lra|]. rewrite <- Eal. apply Rmult_le_compat_r; lra.
        * apply sqrt_le_sq; [lra|]. rewrite <- Ebe. apply Rmult_le_compat_r; lra.
      + assert (Hd' : d < 0) by lra. assert (HZ1 : 1 < Z) by (unfold d in Hd'; nra).
        assert (Hnear : forall e, 0 < e -> exists w, 0 <= w < 1 /\ 1 - w * w <= e * e).
        { intros e He. exists (sqrt (1 - Rmin 1 (e * e))). assert (0 < Rmin 1 (e * e)) by (apply Rmin_glb_lt; nra). pose proof (Rmin_l 1 (e * e)). pose proof (Rmin_r 1 (e * e)).
          rewrite sqrt_sqrt by lra. split; [|lra]. split; [apply sqrt_pos|]. apply Rlt_le_trans with (sqrt 1); [apply sqrt_lt_1; lra|rewrite sqrt_1; lra]. }
        destruct (Rlt_dec 0 A) as [PA|NA]; [|destruct (Rlt_dec 0 B) as [PB|NB]].
        * destruct (Hnear A PA) as (w & Hw & Hw2). exists [sqrt (1 * (1 - w * w)); sqrt ((1 - 1) * (1 - w * w)); w]. split; [exists 1, w; auto|].
          apply wdom3. repeat split; [apply sqrt_le_sq; lra|apply sqrt_le_sq; nra|lra].
        * destruct (Hnear B PB) as (w & Hw & Hw2). exists [sqrt (0 * (1 - w * w)); sqrt ((1 - 0) * (1 - w * w)); w]. split; [exists 0, w; auto|].
          apply wdom3. repeat split; [apply sqrt_le_sq; nra|apply sqrt_le_sq; lra|lra].
        * exfalso. assert (A = 0) by lra. assert (B = 0) by lra. subst A B. replace ((0 * 0 + 0 * 0) / d) with 0 in Hc by (field; lra). replace ((0 * 0 - 0 * 0) / d) with 0 in Hc by (field; lra).
          replace (2 * PI * (0 + 1)) with (2 * PI) in Hc by ring. lra.
    - intros u Hu. pose proof (arcs_octant K u HK Hu) as Ho. destruct (sphere_coords u Ho) as (s & t & Hs & Ht & Eu).
      assert (Hb : in_box n 2 0 1 (- bd) bd (point3 n s t)) by (apply point3_box; auto).
      assert (E : obj (point3 n s t) = Some u) by (rewrite Hobj by auto; rewrite Eu; apply sphere3_point; auto).
      exists (point3 n s t). split; auto. split; auto. exists u. destruct Hu as (k & z & Hk & Hz & ->). pose proof (HK k Hk). assert (Hd : 0 < 1 - z * z) by (replace (1 - z * z) with ((1 - z) * (1 + z)) by ring; apply Rmult_lt_0_compat; lra).
      eexists. split; [exact E|]. unfold ratio_con. cbv zeta. cbn [nth]. unfold sq. rewrite !sqrt_sqrt by (apply Rmult_le_pos; lra).
      destruct (reqb (1 - z * z) 0) eqn:Ed; [exfalso; apply (proj1 (reqb_true _ _)) in Ed; clear - Ed Hd; lra|]. split; [reflexivity|].
      match goal with |- context [h ?a] => replace a with (4 * PI * k) by (field; lra) end. specialize (Hh k Hk).
      replace ((k * (1 - z * z) + (1 - k) * (1 - z * z)) / (1 - z * z)) with 1 by (field; lra). lra.
    - intros u w Hu Hw. apply octant_antichain; eapply arcs_octant; eauto.
  Qed.
End Ratio.
Lemma sin_2PI' : sin (2 * PI) = 0.
Proof. apply sin_2PI. Qed.
Lemma cf8_front_spec n : (5 <= n)%nat -> front (con_ratio (in_box n 2 0 1 (-4) 4) (cf8 n) cf8_con) (cf8 n) (arcs (grid 4)).
Proof.
  intros Hn. assert (E4 : INR 4 = 4) by (cbn; ring). apply (ratio_front n 4 sq); auto using sq_nonneg, sq_zero; try lra.
  - intros x Hx. unfold cf8. rewrite (clip_box n 2 0 1 (-4) 4 x ltac:(lia) Hx). reflexivity.
  - intros k Hk. apply (grid_unit 4); auto; lia.
  - apply grid_0.
  - apply grid_1; lia.
  - intros k Hk. pose proof (grid_sin 4 k ltac:(lia) Hk) as H. rewrite E4 in H. rewrite H, Rabs_R0. lra.
  - rewrite sin_2PI', Rabs_R0. lra.
  - intros a b Ha Hb H0 H. apply (grid_between 4); [lia|auto|auto|]. rewrite E4. replace (4 * PI * (a - b + 1) / 2) with (2 * PI * (a - b + 1)) by field.
    pose proof (Rabs_pos (sin (2 * PI * (a - b + 1)))). lra.
Qed.
Lemma cf9_front_spec n : (5 <= n)%nat -> front (con_ratio (in_box n 2 0 1 (-2) 2) (cf9 n) cf9_con) (cf9 n) (arcs bands).
Proof.
  intros Hn. apply (ratio_front n 2 sq); auto using sq_nonneg, sq_zero, bands_unit; try lra.
  - intros x Hx. unfold cf9. rewrite (clip_box n 2 0 1 (-2) 2 x ltac:(lia) Hx). reflexivity.
  - left; auto.
  - right; right; lra.
  - intros k Hk. pose proof (bands_sin k Hk). lra.
  - rewrite sin_2PI'. lra.
  - intros a b Ha Hb H0 H. apply bands_between; auto. lra.
Qed.
Lemma cf10_front_spec n : (5 <= n)%nat -> front (con_ratio (in_box n 2 0 1 (-2) 2) (cf10 n) cf10_con) (cf10 n) (arcs bands).
Proof.
  intros Hn. apply (ratio_front n 2 wave3); auto using wave3_nonneg, wave3_zero, bands_unit; try lra.
  - left; auto.
  - right; right; lra.
  - intros k Hk. pose proof (bands_sin k Hk). lra.
  - rewrite sin_2PI'. lra.
  - intros a b Ha Hb H0 H. apply bands_between; auto.
Qed.
