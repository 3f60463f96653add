(** The hypervolume and its derivatives are defined at every population: two and three objectives. *)
From Coq Require Import List Arith Bool Reals ZArith Lia Lra Permutation.
From Verif Require Import Num Exn ListAux NDSSpec HVModel HVTheory HVSpec HVTop HVDModel HVDSpec HVDProof HVXModel HvnTwo.
From Verif Require Import StateModel StateSpec StateProof NewtonModel RefModel StepModel StepSpec ShiftModel IterModel IterSpec IterProof IterMain IterTotal HvnModel HvnSpec HvnProof HvnRun.
Import ListNotations.
Open Scope R_scope.

(** * three objectives *)
Lemma map_res_total {A B} (f : A -> res B) l : (forall a, In a l -> exists b, f a = Ok b) -> exists r, map_res f l = Ok r.
Proof.
  induction l as [|a l IH]; intros H. cbn; eauto. cbn [map_res]. destruct (H a (or_introl eq_refl)) as [b Eb]. rewrite Eb. cbn [bind]. destruct IH as [r Er]. intros; apply H; simpl; auto. rewrite Er. cbn [bind]. eauto.
Qed.
Lemma insert_total {A} k (x : A) : forall l, (k <= length l)%nat -> exists r, insert_at k x l = Ok r /\ length r = S (length l).
Proof.
  induction k as [|k IH]; intros l H. eexists; split; reflexivity. destruct l as [|a l]; [simpl in H; lia|]. cbn [insert_at]. destruct (IH l ltac:(simpl in H; lia)) as (r & E & L). rewrite E. cbn [bind]. eexists; split; eauto. simpl; congruence.
Qed.
Lemma dY2_length F ref : length (dY2 F ref) = length F.
Proof. unfold dY2. rewrite map_length, seq_length. reflexivity. Qed.
Lemma dY2_rows F ref r : In r (dY2 F ref) -> length r = 2%nat.
Proof. intros H. unfold dY2 in H. apply in_map_iff in H as (i & <- & _). reflexivity. Qed.
Lemma one_out (nd : list nat) : forall (g : list (list R)), NoDup nd -> In 0%nat nd -> length g = length nd -> exists r, map snd (filter (fun e => Nat.eqb (fst e) 0) (combine nd g)) = [r] /\ In r g.
Proof.
  induction nd as [|a nd IH]; intros g Hn Hin Hl; [destruct Hin|]. destruct g as [|r g]; [discriminate|]. inversion Hn; subst. cbn [combine filter fst]. destruct (Nat.eqb_spec a 0) as [->|Ha].
  - exists r. split; [|simpl; auto]. cbn [map snd]. f_equal. assert (F : filter (fun e => Nat.eqb (fst e) 0) (combine nd g) = []).
    { clear -H1. revert g. induction nd as [|b nd IH]; intros [|r g]; auto. cbn [combine filter fst]. destruct (Nat.eqb_spec b 0) as [->|]; [exfalso; apply H1; simpl; auto|]. apply IH. intros H. apply H1. simpl; auto. }
    rewrite F. reflexivity.
  - destruct Hin as [->|Hin]; [congruence|]. destruct (IH g H2 Hin ltac:(simpl in Hl; lia)) as (r' & E & Hr). exists r'. split; auto. simpl; auto.
Qed.
Lemma map2_rows {A B C} (f : A -> B -> C) a : forall b r, In r (map2 f a b) -> exists x y, In x a /\ In y b /\ r = f x y.
Proof.
  induction a as [|x a IH]; intros [|y b] r H; cbn in H; try contradiction. destruct H as [<-|H]. exists x, y. simpl; auto. destruct (IH b r H) as (x' & y' & H1 & H2 & H3). exists x', y'. simpl; auto.
Qed.
Lemma delete3 k y : (k < 3)%nat -> length y = 3%nat -> length (delete_at k y : list R) = 2%nat.
Proof. intros Hk Hy. rewrite delete_at_length; lia. Qed.
Section Three.
Variable minf : R.
Variable ar : list R -> list nat.
Hypothesis Har : argsort_ok ar.
Lemma improvement_two y F ref : length ref = 2%nat -> length y = 2%nat -> (forall p, In p F -> length p = 2%nat) -> exists v, hypervolume_improvement minf ar y F ref = Ok v.
Proof using Har.
  intros Hr Hy HF. unfold hypervolume_improvement. rewrite (hv2_value minf ar (y :: F) ref Har Hr). 2:{ intros p [<-|Hp]; auto. } cbn [bind]. rewrite (hv2_value minf ar F ref Har Hr HF). cbn [bind]. eauto.
Qed.
Section Pop.
Variable Y : list (list R).
Variable ref : list R.
Hypothesis Hr : length ref = 3%nat.
Hypothesis HY : forall y, In y Y -> length y = 3%nat.
Lemma rows3 : HVSpec.rows_ok Y ref.
Proof using Hr HY. intros y Hy. rewrite Hr. auto. Qed.
Lemma projected3 i k : (i < length Y)%nat -> (k < 3)%nat -> exists fr idx, project k i Y ref = Ok (delete_at k (nth i Y []), fr, delete_at k ref, idx) /\ length fr = length idx /\
  (forall p, In p fr -> length p = 2%nat /\ exists j, (j < length Y)%nat /\ coord Y j k < coord Y i k /\ p = delete_at k (nth j Y [])).
Proof using Hr HY.
  intros Hi Hk. destruct (project_spec Y ref k i 2 rows3 Hi Hr ltac:(lia) ltac:(lia)) as (fr & idx & E & L & _ & H1 & _). exists fr, idx. split; auto. split; auto.
  intros p Hp. apply (In_nth _ _ []) in Hp as (s & Hs & <-). destruct (H1 s ltac:(lia)) as (Ha & Hb & ->). split. apply delete3; auto. apply HY, nth_In; auto. eauto.
Qed.
End Pop.
Lemma dY_three Y ref : Y <> [] -> length ref = 3%nat -> (forall y, In y Y -> length y = 3%nat) -> exists g, compute_HVdY minf ar 3 Y ref = Ok g.
Proof using Har.
  intros HN Hr HL. unfold compute_HVdY. rewrite (rows2 3 Y HL). cbn [negb]. destruct (nondominated_spec Y 3 HN ltac:(lia) HL) as (nd & E & _ & Hin & _). rewrite E. cbn [bind].
  assert (HF : forall y, In y (gather [] Y nd) -> length y = 3%nat) by (intros y Hy; apply in_map_iff in Hy as (i & <- & Hi); apply HL, nth_In; auto).
  unfold hypervolume_dY. rewrite Hr. match goal with |- exists g, (do g0 <- map_res ?f ?l; _) = _ => destruct (map_res_total f l) as [r Er] end; [|rewrite Er; cbn [bind]; eauto].
  intros i Hi. apply in_seq in Hi. apply map_res_total. intros k Hk. apply in_seq in Hk. destruct (projected3 _ ref Hr HF i k ltac:(lia) ltac:(lia)) as (fr & idx & Ep & _ & Hp). rewrite Ep. cbn [bind].
  destruct (improvement_two (delete_at k (nth i (gather [] Y nd) [])) fr (delete_at k ref)) as [v Ev]; [apply delete3; lia|apply delete3; [lia|apply HF, nth_In; lia]|intros p Hpp; apply Hp; auto|]. rewrite Ev. cbn [bind]. eauto.
Qed.
Lemma hess_column_three Y ref i k : length ref = 3%nat -> (forall y, In y Y -> length y = 3%nat) -> (i < length Y)%nat -> (k < 3)%nat ->
  (forall j, (j < length Y)%nat -> ~ dominates (nth j Y []) (nth i Y [])) -> exists H, hess_column minf ar 3 Y ref i k = Ok H.
Proof using.
  intros Hr HL Hi Hk Hnd. destruct (projected3 Y ref Hr HL i k Hi Hk) as (fr & idx & E & L & Hp). unfold hess_column. rewrite E. cbn [bind].
  assert (Lr : length (delete_at k ref) = 2%nat) by (apply delete3; auto). assert (Ly : length (delete_at k (nth i Y [])) = 2%nat) by (apply delete3; auto; apply HL, nth_In; auto).
  rewrite Lr. set (Y_ := delete_at k (nth i Y []) :: fr). assert (HY_ : forall p, In p Y_ -> length p = 2%nat) by (intros p [<-|H]; auto; apply Hp; auto).
  destruct (nondominated_spec Y_ 2 ltac:(unfold Y_; congruence) ltac:(lia) HY_) as (nd & En & Nn & _ & _ & _ & Hall). rewrite En. cbn [bind].
  unfold hypervolume_dY. rewrite Lr. cbn [bind].
  assert (H0 : In 0%nat nd).
  { apply Hall; [lia|unfold Y_; simpl; lia|]. intros (j & Hj & Hd). unfold row in Hd. destruct j as [|j].
    - destruct Hd as (_ & _ & l & Hl & Hlt). lra.
    - unfold Y_ in Hd. cbn [nth] in Hd. unfold Y_ in Hj. cbn [length] in Hj. destruct (Hp (nth j fr []) ltac:(apply nth_In; lia)) as (_ & q & Hq & Hlt & Eq). rewrite Eq in Hd.
      apply (Hnd q Hq). destruct Hd as (_ & Hle & _). assert (Lq : length (nth q Y []) = 3%nat) by (apply HL, nth_In; auto). assert (Li : length (nth i Y []) = 3%nat) by (apply HL, nth_In; auto).
      rewrite (delete3 k (nth q Y []) Hk Lq) in Hle. split; [congruence|]. rewrite Lq. split; [|exists k; split; [lia|exact Hlt]].
      intros l Hl. destruct (lt_eq_lt_dec l k) as [[Hlk|Hlk]|Hlk].
      + specialize (Hle l ltac:(lia)). rewrite !nth_delete_at in Hle. rewrite (proj2 (Nat.ltb_lt l k) Hlk) in Hle. exact Hle.
      + subst l. unfold coord in Hlt. lra.
      + specialize (Hle (l - 1)%nat ltac:(lia)). rewrite !nth_delete_at in Hle. rewrite (proj2 (Nat.ltb_ge (l - 1) k) ltac:(lia)) in Hle. replace (S (l - 1)) with l in Hle by lia. exact Hle. }
  destruct (one_out nd (dY2 (gather [] Y_ nd) (delete_at k ref)) Nn H0) as (r & Er & Hr2). { rewrite dY2_length. unfold gather. apply map_length. }
  rewrite Er. cbn [concat]. rewrite app_nil_r. pose proof (dY2_rows _ _ _ Hr2) as Lr2. destruct (insert_total k nzero (map (nmul (nopp none_)) r)) as (own & Eo & Lo). { rewrite map_length. lia. } rewrite Eo. cbn [bind].
  unfold assign_block. rewrite Lo, map_length, Lr2. cbn [Nat.eqb bind].
  match goal with |- exists H, (do g4 <- map_res ?f ?l; _) = _ => destruct (map_res_total f l) as [g4 E4] end; [|rewrite E4; cbn [bind]; eauto].
  intros a Ha. apply map2_rows in Ha as (p & row & H1 & H2 & ->). destruct (insert_total k nzero (map2 (fun px ye => if nltb px (fst ye) then nzero else snd ye) p (combine (delete_at k (nth i Y [])) row))) as (q & Eq & _); [|eauto].
  rewrite map2_length, combine_length, Ly, (dY2_rows _ _ _ H2), (proj1 (Hp p H1)). simpl. lia.
Qed.
Lemma dY2_three Y ref : Y <> [] -> length ref = 3%nat -> (forall y, In y Y -> length y = 3%nat) -> exists H, compute_HVdY2 minf ar 3 Y ref = Ok H.
Proof using.
  intros HN Hr HL. unfold compute_HVdY2. rewrite (rows2 3 Y HL). cbn [negb]. destruct (nondominated_spec Y 3 HN ltac:(lia) HL) as (nd & E & _ & Hin & _ & Hdom & _). rewrite E. cbn [bind].
  apply map_res_total. intros i Hi. apply in_seq in Hi. destruct (existsb (Nat.eqb i) nd) eqn:Ee; [|eauto]. apply existsb_exists in Ee as (i' & Hi' & Eq). apply Nat.eqb_eq in Eq. subst i'.
  apply map_res_total. intros k Hk. apply in_seq in Hk. apply hess_column_three; auto; try lia. intros j Hj Hd. apply (Hdom i Hi'). exists j. split; auto.
Qed.
End Three.

(** * HVN *)
Section Hvn.
Variable V : hvn_cfg.
Hypothesis P : hvn_posed V.
Hypothesis Har : argsort_ok (v_argsort V).
Let K := as_dpn V.
Lemma defined_from : (forall Y, Y <> [] -> (forall y, In y Y -> length y = v_nobj V) -> (exists x, incl Y (map (cb_point (c_func (v_prob V))) x) /\ forall z, In z x -> length z = c_nvar (v_prob V)) ->
    (exists v, hypervolume (v_minf V) (v_argsort V) Y (v_ref V) = Ok v) /\ (exists g, compute_HVdY (v_minf V) (v_argsort V) (v_nobj V) Y (v_ref V) = Ok g) /\ exists H, compute_HVdY2 (v_minf V) (v_argsort V) (v_nobj V) Y (v_ref V) = Ok H) -> hv_defined V.
Proof using P.
  intros H n t X Hn HP Ht. destruct (pop_Y K (hp_problem V P) n t X HP Ht) as [LY RY].
  destruct (H (s_Y t)) as ((v & Ev) & (g & Eg) & (h & Eh)); auto. { intros E. rewrite E in LY. simpl in LY. lia. }
  { exists (map (pr (v_prob V)) X). unfold holds, data in Ht. injection Ht as _ E2 _ _ _ _ _. split. rewrite E2, map_map. apply incl_refl.
    intros z Hz. apply in_map_iff in Hz as (x & <- & Hx). apply (pr_length K). destruct HP as [_ HP]. auto. }
  split. exists v. unfold hv_value, compute, oref, hv_obj. cbn [minimization o_ref]. auto.
  unfold hv_derivatives, compute_hessian, compute_gradient, obj_points. change (oref (hv_obj V)) with (v_ref V). change (n_obj (hv_obj V)) with (v_nobj V). rewrite Eg. cbn [bind]. rewrite Eh. cbn [bind]. eauto.
Qed.
Lemma defined_two : v_nobj V = 2%nat -> hv_defined V.
Proof using P Har.
  intros H2. apply defined_from. rewrite H2. intros Y HN HY _. pose proof (hp_ref V P) as Hr. rewrite H2 in Hr. rewrite (hv2_value _ _ Y _ Har Hr HY). split; [eauto|]. split. apply dY_two; auto. apply dY2_two; auto.
Qed.
Lemma defined_three : v_nobj V = 3%nat -> (forall x k, length x = c_nvar (v_prob V) -> (k < 3)%nat -> v_minf V <= nth k (cb_point (c_func (v_prob V)) x) 0 - nth k (v_ref V) 0) -> hv_defined V.
Proof using P Har.
  intros H3 Hlow. apply defined_from. rewrite H3. intros Y HN HY (xs & Hi & Hx). pose proof (hp_ref V P) as Hr. rewrite H3 in Hr. split; [|split; [apply dY_three; auto|apply dY2_three; auto]].
  eexists. apply hypervolume_correct; auto; try lia. intros p Hp. rewrite Hr; auto.
  intros p k Hp _ Hk. apply Hi in Hp. apply in_map_iff in Hp as (x & <- & Hp). apply Hlow; auto. lia.
Qed.
End Hvn.
