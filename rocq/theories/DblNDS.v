(** Carrying order-only computations from doubles to reals. *)
From Coq Require Import ZArith Reals Lra List Arith Lia Bool Floats.SpecFloat.
From Flocq Require Import Core IEEE754.BinarySingleNaN.
From Verif Require Import Num Exn NDSModel NDSSpec NDSHom HVHom DblModel DblSpec UtilsModel.
Import ListNotations.
Open Scope nat_scope.

(** the value of a double, infinities being sent beyond all finite values *)
Definition dval (x : double) : R :=
  match x with
  | B754_infinity s => if s then (- bpow radix2 1024)%R else bpow radix2 1024
  | _ => B2R x
  end.

Lemma dval_finite x : is_finite x = true -> dval x = B2R x.
Proof. destruct x; simpl; auto; discriminate. Qed.

Lemma dval_ltb x y : isnan x = false -> isnan y = false -> Bltb x y = Rltb (dval x) (dval y).
Proof.
  intros Hx Hy.
  assert (B : forall z : double, (- bpow radix2 1024 < B2R z < bpow radix2 1024)%R).
  { intros z. pose proof (abs_B2R_lt_emax 53 1024 z) as H. apply Rabs_def2 in H. lra. }
  assert (P : (0 < bpow radix2 1024)%R) by apply bpow_gt_0.
  destruct (is_finite x) eqn:Fx; destruct (is_finite y) eqn:Fy.
  - rewrite Bltb_correct, !dval_finite by auto. unfold Rltb.
    destruct (Rlt_dec _ _); [apply Rlt_bool_true; auto|apply Rlt_bool_false; lra].
  - rewrite (dval_finite x) by auto. pose proof (B x).
    destruct y as [| [|] | |]; try discriminate; destruct x as [|? | |[|]]; try discriminate; cbn [dval]; unfold Rltb;
      destruct (Rlt_dec _ _); auto; lra.
  - rewrite (dval_finite y) by auto. pose proof (B y).
    destruct x as [| [|] | |]; try discriminate; destruct y as [|? | |[|]]; try discriminate; cbn [dval]; unfold Rltb;
      destruct (Rlt_dec _ _); auto; lra.
  - destruct x as [| [|] | |]; try discriminate; destruct y as [|[|] | |]; try discriminate; cbn [dval]; unfold Rltb;
      destruct (Rlt_dec _ _); auto; lra.
Qed.

Lemma Bleb_ltb (x y : double) : isnan x = false -> isnan y = false -> Bleb x y = negb (Bltb y x).
Proof.
  intros Hx Hy.
  assert (E : Bcompare y x = match Bcompare x y with Some c => Some (CompOpp c) | None => None end)
    by apply Bcompare_swap.
  unfold Bleb, Bltb, SFleb, SFltb. unfold Bcompare in E. rewrite E.
  assert (N : SFcompare (B2SF x) (B2SF y) <> None).
  { destruct x as [|[|]| |[|]]; try discriminate Hx; destruct y as [|[|]| |[|]]; try discriminate Hy; simpl;
      try discriminate; destruct (_ ?= _)%Z; discriminate. }
  destruct (SFcompare (B2SF x) (B2SF y)) as [[| |]|]; simpl; congruence.
Qed.
Lemma dval_leb x y : isnan x = false -> isnan y = false -> Bleb x y = negb (Rltb (dval y) (dval x)).
Proof. intros Hx Hy. rewrite Bleb_ltb, dval_ltb; auto. Qed.

(** the doubles that are not NaN *)
Definition nnd := { x : double | isnan x = false }.
Definition nz : nnd := exist _ d0 eq_refl.
#[global] Instance NumN : Num nnd :=
  mkNum nnd nz nz (fun _ _ => nz) (fun _ _ => nz) (fun _ _ => nz) (fun _ => nz)
    (fun x y => Bltb (proj1_sig x) (proj1_sig y)).

#[global] Instance proj_hom : OrdHom (fun x : nnd => proj1_sig x : double).
Proof. split; reflexivity. Qed.
#[global] Instance nval_hom : OrdHom (fun x : nnd => dval (proj1_sig x)).
Proof.
  split; [reflexivity|]. intros [x Hx] [y Hy]. cbn [proj1_sig]. symmetry. exact (dval_ltb x y Hx Hy).
Qed.

Lemma lift1 (p : list double) : (forall x, In x p -> isnan x = false) ->
  exists p' : list nnd, p = map (fun x : nnd => proj1_sig x) p'.
Proof.
  induction p as [|x p IH]; intros Hp; [exists []; auto|].
  destruct IH as [p' ->]; [intros; apply Hp; right; auto|].
  exists (exist _ x (Hp x (or_introl eq_refl)) :: p'). auto.
Qed.
Lemma lift2 (P : list (list double)) : nan_free P ->
  exists P' : list (list nnd), P = map (map (fun x : nnd => proj1_sig x)) P'.
Proof.
  induction P as [|p P IH]; intros HP; [exists []; auto|].
  destruct IH as [P' ->]; [intros q x Hq; apply HP; right; auto|].
  destruct (lift1 p) as [p' ->]; [intros x; apply HP; left; auto|].
  exists (p' :: P'). auto.
Qed.
Lemma val2 (P' : list (list nnd)) :
  map (map dval) (map (map (fun x : nnd => proj1_sig x)) P') = map (map (fun x : nnd => dval (proj1_sig x))) P'.
Proof. rewrite map_map. apply map_ext. intros p. apply map_map. Qed.

Lemma d_sort_idx P : nan_free P -> non_domin_sort_idx P = non_domin_sort_idx (map (map dval) P).
Proof.
  intros HP. destruct (lift2 P HP) as [P' ->].
  rewrite val2, (o_sort_idx (fun x : nnd => dval (proj1_sig x))).
  apply (o_sort_idx (fun x : nnd => proj1_sig x : double)).
Qed.
Lemma d_sort_dec P : nan_free P -> non_domin_sort_dec P = non_domin_sort_dec (map (map dval) P).
Proof.
  intros HP. destruct (lift2 P HP) as [P' ->].
  rewrite val2, (o_sort_dec (fun x : nnd => dval (proj1_sig x))).
  apply (o_sort_dec (fun x : nnd => proj1_sig x : double)).
Qed.
Lemma d_gnd P ic ic' : nan_free P ->
  get_non_dominated_idx ic true P = get_non_dominated_idx ic' true (map (map dval) P).
Proof.
  intros HP. destruct (lift2 P HP) as [P' ->].
  rewrite val2, (o_gnd_idx (fun x : nnd => dval (proj1_sig x)) (fun _ _ => false)).
  apply (o_gnd_idx (fun x : nnd => proj1_sig x : double)).
Qed.
Lemma d_dom p q : nan_free [p; q] -> is_dominate p q = is_dominate (map dval p) (map dval q).
Proof.
  intros HP.
  destruct (lift1 p) as [p' ->]; [intros x; apply HP; left; auto|].
  destruct (lift1 q) as [q' ->]; [intros x; apply HP; right; left; auto|].
  rewrite !map_map.
  rewrite (o_is_dominate (fun x : nnd => dval (proj1_sig x))).
  apply (o_is_dominate (fun x : nnd => proj1_sig x : double)).
Qed.

Lemma nth_dval p k : nth k (map dval p) 0%R = dval (nth k p d0).
Proof. change 0%R with (dval d0). apply map_nth. Qed.

Lemma dom_val p q : nan_free [p; q] -> (ddominates p q <-> dominates (map dval p) (map dval q)).
Proof.
  intros HP. unfold ddominates, dominates. rewrite !map_length.
  split; intros (El & Ha & k & Hk & Hl); (split; [exact El|]).
  - split.
    + intros j Hj. specialize (Ha j Hj). rewrite !nth_dval.
      rewrite dval_leb in Ha by (eapply HP; [|apply nth_In]; simpl; auto; lia).
      destruct (Rltb_spec (dval (nth j q d0)) (dval (nth j p d0))); [discriminate|lra].
    + exists k. split; auto. rewrite !nth_dval.
      rewrite dval_ltb in Hl by (eapply HP; [|apply nth_In]; simpl; auto; lia).
      destruct (Rltb_spec (dval (nth k p d0)) (dval (nth k q d0))); [auto|discriminate].
  - split.
    + intros j Hj. specialize (Ha j Hj). rewrite !nth_dval in Ha.
      rewrite dval_leb by (eapply HP; [|apply nth_In]; simpl; auto; lia).
      destruct (Rltb_spec (dval (nth j q d0)) (dval (nth j p d0))); [lra|reflexivity].
    + exists k. split; auto. rewrite !nth_dval in Hl.
      rewrite dval_ltb by (eapply HP; [|apply nth_In]; simpl; auto; lia).
      destruct (Rltb_spec (dval (nth k p d0)) (dval (nth k q d0))); [auto|lra].
Qed.
Lemma wdom_val p q : nan_free [p; q] -> (dweakly_dominates p q <-> weakly_dominates (map dval p) (map dval q)).
Proof.
  intros HP. unfold dweakly_dominates, weakly_dominates. rewrite !map_length.
  split; intros (El & Ha); (split; [exact El|]); intros j Hj; specialize (Ha j Hj).
  - rewrite !nth_dval. rewrite dval_leb in Ha by (eapply HP; [|apply nth_In]; simpl; auto; lia).
    destruct (Rltb_spec (dval (nth j q d0)) (dval (nth j p d0))); [discriminate|lra].
  - rewrite !nth_dval in Ha. rewrite dval_leb by (eapply HP; [|apply nth_In]; simpl; auto; lia).
    destruct (Rltb_spec (dval (nth j q d0)) (dval (nth j p d0))); [lra|reflexivity].
Qed.

Lemma row_val P i : row (map (map dval) P) i = map dval (drow P i).
Proof. unfold row, drow. change (@nil R) with (map dval []). apply map_nth. Qed.
Lemma nan_free_rows P i j : nan_free P -> nan_free [drow P i; drow P j].
Proof.
  intros HP p x [<-|[<-|[]]] Hx; unfold drow in Hx.
  - destruct (nth_in_or_default i P []) as [H|H]; [exact (HP _ _ H Hx)|rewrite H in Hx; destruct Hx].
  - destruct (nth_in_or_default j P []) as [H|H]; [exact (HP _ _ H Hx)|rewrite H in Hx; destruct Hx].
Qed.

Lemma remaining_val P r i : nan_free P -> (dremaining P r i <-> remaining (map (map dval) P) r i).
Proof.
  intros HP. revert i. induction r as [|r IH]; intros i; simpl; [rewrite map_length; tauto|].
  rewrite IH. split; intros [Hi (j & Hj & Hd)]; (split; [exact Hi|]); exists j.
  - rewrite !row_val, <- IH, <- dom_val by (auto using nan_free_rows). auto.
  - rewrite !row_val, <- IH, <- dom_val in * by (auto using nan_free_rows). auto.
Qed.
Lemma front_val P r i : nan_free P -> (dpareto_front P r i <-> pareto_front (map (map dval) P) r i).
Proof.
  intros HP. unfold dpareto_front, pareto_front. rewrite remaining_val by auto.
  split; intros [Hi Hn]; (split; [exact Hi|]); intros (j & Hj & Hd); apply Hn; exists j.
  - rewrite !row_val, <- remaining_val, <- dom_val in * by (auto using nan_free_rows). auto.
  - rewrite !row_val, <- remaining_val, <- dom_val by (auto using nan_free_rows). auto.
Qed.
