(** Gradient and Hessian of the hypervolume on doubles: the indices chosen are those of the
    real run; the entries are related by a relation given as a parameter (instances in
    DblGradI). *)
From Coq Require Import ZArith Reals Lra List Arith Lia Bool Permutation.
From Flocq Require Import Core IEEE754.BinarySingleNaN.
From Verif Require Import Num Exn ListAux NDSModel NDSSpec HVSpec HVModel HVExtra HVDModel HVDSpec HVDProof DblModel DblSpec DblNDS DblSim DblRel.
Import ListNotations.
Open Scope nat_scope.

Definition finv (p : list double) : Prop := forall x, In x p -> is_finite x = true.
Definition finm (P : list (list double)) : Prop := forall p, In p P -> finv p.

Lemma fin_nth (p : list double) k : finv p -> is_finite (nth k p nzero) = true.
Proof. intros H. destruct (nth_in_or_default k p nzero) as [G|G]; [auto|]. rewrite G. reflexivity. Qed.
Lemma fin_row (P : list (list double)) i : finm P -> finv (nth i P []).
Proof. intros H. destruct (nth_in_or_default i P []) as [G|G]; [auto|]. rewrite G. intros x []. Qed.
Lemma dvec_nth (p : list double) k : nth k (dvec p) (nzero : R) = B2R (nth k p nzero).
Proof. apply (nth_dR p k). Qed.
Lemma dmat_nth (P : list (list double)) i : nth i (dmat P) [] = dvec (nth i P []).
Proof. unfold dmat. change (@nil R) with (dvec []). apply map_nth. Qed.
Lemma dvec_len p : length (dvec p) = length p.
Proof. apply map_length. Qed.
Lemma dmat_len P : length (dmat P) = length P.
Proof. apply map_length. Qed.
Lemma nth_ltb (p q : list double) k j : finv p -> finv q ->
  nltb (nth k p nzero) (nth j q nzero) = nltb (nth k (dvec p) nzero) (nth j (dvec q) nzero).
Proof. intros Hp Hq. rewrite !dvec_nth. apply fin_ltb; apply fin_nth; auto. Qed.

(** * Order-only parts *)
Lemma argmin_aux_val : forall (l : list double) pos best b, finv l -> is_finite b = true ->
  argmin_aux (dvec l) pos best (B2R b) = argmin_aux l pos best b.
Proof.
  induction l as [|x l IH]; intros pos best b Hl Hb; cbn [argmin_aux dvec map]; auto.
  assert (Hx : is_finite x = true) by (apply Hl; simpl; auto). assert (Hl' : finv l) by (intros y Hy; apply Hl; simpl; auto).
  rewrite <- fin_ltb by auto. destruct (nltb x b); apply IH; auto.
Qed.
Lemma argmin_val l : finv l -> argmin (dvec l) = argmin l.
Proof.
  destruct l as [|x l]; intros H; auto. cbn [argmin dvec map]. f_equal. apply argmin_aux_val; [intros y Hy|]; apply H; simpl; auto.
Qed.
Lemma first_front_val P : finm P -> first_front (dmat P) = first_front P.
Proof.
  intros H. unfold first_front. rewrite (d_sort_idx P) by (intros p x Hp Hx; apply fin_nan, (H p Hp x Hx)).
  replace (map (map dval) P) with (dmat P); auto. unfold dmat, dvec. apply map_ext_in. intros p Hp. apply map_ext_in.
  intros x Hx. symmetry. apply dval_finite, (H p Hp x Hx).
Qed.
Lemma nondominated_indices_val m P : finm P -> nondominated_indices m (dmat P) = nondominated_indices m P.
Proof.
  intros H. unfold nondominated_indices. destruct (m =? 1); [|apply first_front_val; auto].
  unfold dmat, dvec. rewrite <- concat_map. fold (dvec (concat P)). rewrite argmin_val; auto.
  intros x Hx. apply in_concat in Hx as (p & Hp & Hx). apply (H p Hp x Hx).
Qed.
Lemma delete_at_map {A B} (f : A -> B) k l : delete_at k (map f l) = map f (delete_at k l).
Proof. revert k. induction l as [|x l IH]; intros [|k]; simpl; auto. rewrite IH. auto. Qed.
Lemma delete_at_in {A} k (l : list A) x : In x (delete_at k l) -> In x l.
Proof. revert k. induction l as [|y l IH]; intros [|k]; simpl; auto. intros [->|H]; eauto. Qed.
Lemma delete_at_len {A} k (l : list A) : k < length l -> length (delete_at k l) = length l - 1.
Proof. revert k. induction l as [|y l IH]; intros [|k] H; simpl in *; try lia. rewrite IH by lia. lia. Qed.
Lemma gather_map {A B} (f : A -> B) d d' l ix : f d = d' -> gather d' (map f l) ix = map f (gather d l ix).
Proof. intros <-. unfold gather. rewrite map_map. apply map_ext. intros i. apply map_nth. Qed.
Lemma gather_rows (P : list (list double)) ix p : In p (gather [] P ix) -> In p P \/ p = [].
Proof. intros H. apply in_map_iff in H as (i & <- & _). destruct (nth_in_or_default i P []); auto. Qed.
Lemma gather_dmat (P : list (list double)) ix : gather [] (dmat P) ix = dmat (gather [] P ix).
Proof. apply gather_map. auto. Qed.

Definition prmap (t : list double * list (list double) * list double * list nat) :=
  let '(y, F, r, ix) := t in (dvec y, dmat F, dvec r, ix).
Lemma project_val k i F ref : finm F ->
  project k i (dmat F) (dvec ref) = match project k i F ref with Ok t => Ok (prmap t) | Exn e => Exn e end.
Proof.
  intros HF. unfold project. unfold dmat at 1. rewrite nth_error_map. destruct (nth_error F i) as [y|] eqn:Ey; cbn [option_map]; auto.
  assert (Hy : finv y) by (apply HF; eapply nth_error_In; eauto).
  rewrite dmat_len.
  assert (Ei : filter (fun j => nltb (nth k (nth j (dmat F) []) nzero) (nth k (dvec y) nzero)) (seq 0 (length F)) =
               filter (fun j => nltb (nth k (nth j F []) nzero) (nth k y nzero)) (seq 0 (length F))).
  { apply filter_ext. intros j. rewrite dmat_nth, <- nth_ltb; auto using fin_row. }
  rewrite Ei. set (idx := filter _ _). set (F_ := map (delete_at k) (gather [] F idx)).
  assert (EF : map (delete_at k) (gather [] (dmat F) idx) = dmat F_).
  { rewrite gather_dmat. unfold F_, dmat. rewrite !map_map. apply map_ext. intros p. apply delete_at_map. }
  rewrite EF, dmat_len.
  assert (Ed : forall p, delete_at k (dvec p) = dvec (delete_at k p)) by (intros p; apply delete_at_map). rewrite !Ed.
  destruct (length F_ =? 0); auto. rewrite dvec_len, nondominated_indices_val.
  - destruct (nondominated_indices _ F_) as [ind|e]; cbn [bind]; auto. cbn [prmap]. rewrite gather_dmat. auto.
  - intros p Hp. apply in_map_iff in Hp as (q & <- & Hq). apply gather_rows in Hq as [Hq| ->]; [|destruct k; intros x []].
    intros x Hx. apply delete_at_in in Hx. apply (HF q Hq x Hx).
Qed.

Lemma insert_desc_val l i acc : finv l -> insert_desc (dvec l) i acc = insert_desc l i acc.
Proof. intros Hl. induction acc as [|j acc IH]; cbn [insert_desc]; auto. rewrite <- nth_ltb, IH; auto. Qed.
Lemma argsort_desc_val l : finv l -> argsort_desc (dvec l) = argsort_desc l.
Proof.
  intros Hl. unfold argsort_desc. rewrite dvec_len. induction (seq 0 (length l)) as [|i s IH]; simpl; auto.
  rewrite IH. apply insert_desc_val; auto.
Qed.
Definition colD (F : list (list double)) k := map (fun p => nth k p nzero) F.
Lemma col_val F k : map (fun p => nth k p nzero) (dmat F) = dvec (colD F k).
Proof. unfold dmat, colD, dvec. rewrite !map_map. apply map_ext. intros p. apply dvec_nth. Qed.
Lemma col_fin F k : finm F -> finv (colD F k).
Proof. intros H x Hx. apply in_map_iff in Hx as (p & <- & Hp). apply fin_nth; auto. Qed.
Lemma gather_dvec l ix : gather nzero (dvec l) ix = dvec (gather nzero l ix).
Proof. apply gather_map. auto. Qed.
Lemma gather_fin l ix : finv l -> finv (gather nzero l ix).
Proof. intros H x Hx. apply in_map_iff in Hx as (i & <- & _). apply fin_nth; auto. Qed.
Lemma order_val F : finm F -> dY2_order (dmat F) = dY2_order F.
Proof.
  intros HF. unfold dY2_order. cbv zeta. rewrite !col_val. fold (colD F 0) (colD F 1).
  rewrite argsort_desc_val by (apply col_fin; auto). rewrite gather_dvec, argsort_desc_val; auto.
  apply gather_fin, col_fin; auto.
Qed.

(** * Arithmetic *)
Section Sim.
Variables (minf : double) (argsort : list double -> list nat) (minr : R) (asr : list R -> list nat).
Variable ok : double -> Prop.
Variable E : double -> R -> Prop.
(** [D] is the number of objectives of the improvements, [N] bounds the number of points *)
Variables D N : nat.
Hypothesis ok_fin : forall x, ok x -> is_finite x = true.
Hypothesis E_zero : E nzero 0%R.
Hypothesis E_mone : E (nopp none_) (-1)%R.
Hypothesis E_neg : forall x r, E x r -> E (nmul (nopp none_) x) (-1 * r)%R.
Hypothesis E_sub : D <= 1 -> forall x y, ok x -> ok y -> E (nsub x y) (B2R x - B2R y)%R.
Definition okv (p : list double) : Prop := forall x, In x p -> ok x.
Definition okm (P : list (list double)) : Prop := forall p, In p P -> okv p.
Definition rowsD (F : list (list double)) (ref : list double) : Prop := forall p, In p F -> length p = length ref.
Hypothesis E_impr : forall y F ref, 2 <= D -> length ref = D -> length (y :: F) <= N -> rowsD (y :: F) ref -> okm (y :: F) -> okv ref ->
  rsim E (hypervolume_improvement minf argsort y F ref) (hypervolume_improvement minr asr (dvec y) (dmat F) (dvec ref)).

Lemma okm_finm P : okm P -> finm P.
Proof. intros H p Hp x Hx. apply ok_fin, (H p Hp x Hx). Qed.
Lemma rows_val F ref : rowsD F ref -> rows_ok (dmat F) (dvec ref).
Proof. intros H p Hp. apply in_map_iff in Hp as (q & <- & Hq). rewrite !dvec_len. apply H; auto. Qed.

Lemma project_okD k i F ref y F_ r ix : project k i F ref = Ok (y, F_, r, ix) -> okm F -> okv ref -> rowsD F ref ->
  i < length F -> k < length ref -> 2 <= length ref ->
  okv y /\ okm F_ /\ okv r /\ length r = length ref - 1 /\ length y = length r /\ rowsD F_ r /\ length F_ < length F.
Proof.
  intros EP HF Hr Hrow Hi Hk H2.
  destruct (project_spec (dmat F) (dvec ref) k i (length ref - 1)) as (Fr & idr & ER & EL & HND & Hs & _).
  { apply rows_val; auto. } { rewrite dmat_len; auto. } { rewrite dvec_len; lia. } { lia. } { lia. }
  rewrite project_val, EP in ER by (apply okm_finm; auto). cbn [prmap] in ER. injection ER as E1 E2 E3 E4. subst idr.
  assert (LF : length F_ = length ix) by (rewrite <- EL, <- E2, dmat_len; auto).
  unfold project in EP. destruct (nth_error F i) as [y0|] eqn:Ey; [|discriminate].
  assert (Hy0 : In y0 F) by (eapply nth_error_In; eauto).
  set (idx := filter _ _) in EP. set (G := map (delete_at k) (gather [] F idx)) in EP.
  assert (HG : okm G).
  { intros p Hp. apply in_map_iff in Hp as (q & <- & Hq). apply gather_rows in Hq as [Hq| ->]; [|destruct k; intros x []].
    intros x Hx. apply delete_at_in in Hx. apply (HF q Hq x Hx). }
  assert (C : y = delete_at k y0 /\ r = delete_at k ref /\ okm F_).
  { destruct (length G =? 0).
    - injection EP as <- <- <- _. auto.
    - destruct (nondominated_indices _ G) as [ind|]; cbn [bind] in EP; [|discriminate]. injection EP as <- <- <- _.
      split; auto. split; auto. intros p Hp. apply gather_rows in Hp as [Hp| ->]; [auto|intros x []]. }
  destruct C as (-> & -> & C). assert (Lr : length (delete_at k ref) = length ref - 1) by (apply delete_at_len; auto).
  split; [intros x Hx; apply delete_at_in in Hx; apply (HF y0 Hy0 x Hx)|]. split; auto.
  split; [intros x Hx; apply delete_at_in in Hx; auto|]. split; auto.
  split. { rewrite Lr, delete_at_len; rewrite (Hrow y0 Hy0); auto. }
  split; [|].
  2:{ rewrite LF. apply (Nat.le_trans _ (length (i :: ix))); [auto|]. rewrite <- (seq_length (length F) 0). apply NoDup_incl_length.
    - constructor; auto. intros C0. apply (In_nth _ _ 0) in C0 as (s & Hs1 & Hs2). destruct (Hs s Hs1) as (_ & A2 & _). rewrite Hs2 in A2. lra.
    - intros j [<-|Hj]; [apply in_seq; lia|]. apply (In_nth _ _ 0) in Hj as (s & Hs1 & <-). destruct (Hs s Hs1) as (A1 & _). rewrite dmat_len in A1.
      apply in_seq. lia. }
  intros p Hp. apply (In_nth _ _ []) in Hp as (s & Hs1 & <-).
  destruct (Hs s) as (A1 & _ & A3); [lia|]. rewrite <- E2, dmat_nth in A3. rewrite <- (dvec_len (nth s F_ [])), A3, dmat_nth.
  unfold dvec. rewrite delete_at_map, map_length, Lr. rewrite dmat_len in A1. rewrite delete_at_len; rewrite Hrow by (apply nth_In; auto); auto.
Qed.

Notation EE := (Forall2 E).
Notation EEE := (Forall2 (Forall2 E)).
Lemma scatter_E {A B} (S : A -> B -> Prop) d d' ix v v' i : S d d' -> Forall2 S v v' -> S (scatter d ix v i) (scatter d' ix v' i).
Proof.
  intros Hd Hv. revert ix. induction Hv as [|a b v v' Hab Hv IH]; intros [|j ix]; cbn [scatter]; auto.
  destruct (j =? i); auto.
Qed.
Lemma Forall2_map_seq {A B} (S : A -> B -> Prop) (f : nat -> A) (g : nat -> B) l : (forall i, In i l -> S (f i) (g i)) -> Forall2 S (map f l) (map g l).
Proof. induction l as [|i l IH]; intros H; simpl; constructor; auto with datatypes. Qed.
Lemma map2_sub_E : D <= 1 -> forall a b, okv a -> okv b -> EE (map2 nsub a b) (map2 nsub (dvec a) (dvec b)).
Proof.
  intros HD. induction a as [|x a IH]; intros [|y b] Ha Hb; cbn [map2 dvec map]; constructor.
  - apply E_sub; [auto|apply Ha|apply Hb]; simpl; auto.
  - apply IH; [intros z Hz; apply Ha|intros z Hz; apply Hb]; simpl; auto.
Qed.
Lemma removelast_map {A B} (f : A -> B) l : removelast (map f l) = map f (removelast l).
Proof. induction l as [|x [|y l] IH]; auto. cbn [map removelast] in *. rewrite IH. auto. Qed.
Lemma removelast_in {A} (l : list A) x : In x (removelast l) -> In x l.
Proof. induction l as [|a l IH]; [auto|]. destruct l as [|b l]; [intros []|]. intros [H|H]; [left; auto|right; apply IH; auto]. Qed.
Lemma tl_map {A B} (f : A -> B) l : tl (map f l) = map f (tl l).
Proof. destruct l; auto. Qed.
Lemma tl_in {A} (l : list A) x : In x (tl l) -> In x l.
Proof. destruct l; simpl; auto. Qed.

Lemma dY2_E F ref : D <= 1 -> okm F -> okv ref -> length ref = 2 -> rowsD F ref -> EEE (dY2 F ref) (dY2 (dmat F) (dvec ref)).
Proof.
  intros HD HF Hr L HR. unfold dY2. cbv zeta. rewrite order_val by (apply okm_finm; auto). rewrite !col_val, !gather_dvec, dmat_len.
  fold (colD F 0) (colD F 1). set (idx := dY2_order F).
  assert (PI : Permutation idx (seq 0 (length F))).
  { unfold idx. rewrite <- order_val, <- (dmat_len F) by (apply okm_finm; auto). apply dY2_order_spec. }
  assert (OC : forall k, k < 2 -> okv (gather nzero (colD F k) idx)).
  { intros k Hk x Hx. apply in_map_iff in Hx as (i & <- & Hi). apply (Permutation_in _ PI), in_seq in Hi.
    unfold colD. rewrite (nth_indep _ _ (nth k [] nzero)) by (rewrite map_length; lia). rewrite (map_nth (fun p => nth k p nzero)).
    assert (Hp : In (nth i F []) F) by (apply nth_In; lia). apply (HF _ Hp), nth_In. rewrite (HR _ Hp). lia. }
  pose proof (OC 0 ltac:(lia)) as O0. pose proof (OC 1 ltac:(lia)) as O1.
  assert (OR : forall k, k < 2 -> ok (nth k ref nzero)) by (intros k Hk; apply Hr, nth_In; lia).
  set (y1 := gather nzero (colD F 0) idx) in *. set (y2 := gather nzero (colD F 1) idx) in *.
  assert (V0 : EE (map2 nsub y2 (nth 1 ref nzero :: removelast y2)) (map2 nsub (dvec y2) (nth 1 (dvec ref) nzero :: removelast (dvec y2)))).
  { rewrite dvec_nth. unfold dvec at 2. rewrite removelast_map. apply (map2_sub_E HD y2 (nth 1 ref nzero :: removelast y2)); auto.
    intros x [<-|Hx]; [apply OR; lia|]. apply O1, removelast_in; auto. }
  assert (V1 : EE (map2 nsub y1 (tl y1 ++ [nth 0 ref nzero])) (map2 nsub (dvec y1) (tl (dvec y1) ++ [nth 0 (dvec ref) nzero]))).
  { rewrite dvec_nth. unfold dvec at 2. rewrite tl_map. change [B2R (nth 0 ref nzero)] with (map dR [nth 0 ref nzero]). rewrite <- map_app.
    apply map2_sub_E; auto. intros x Hx. apply in_app_or in Hx as [Hx|[<-|[]]]; [|apply OR; lia]. apply O0, tl_in; auto. }
  apply Forall2_map_seq. intros i _. constructor; [apply scatter_E; auto|]. constructor; [apply scatter_E; auto|constructor].
Qed.

Lemma map_res_rsim {A B C} (S : B -> C -> Prop) (f : A -> res B) (g : A -> res C) l : (forall a, In a l -> rsim S (f a) (g a)) ->
  rsim (Forall2 S) (map_res f l) (map_res g l).
Proof.
  induction l as [|a l IH]; intros H; cbn [map_res]; [constructor|].
  apply (rsim_bind S); [apply H; simpl; auto|]. intros b c Hbc.
  apply (rsim_bind (Forall2 S)); [apply IH; intros; apply H; simpl; auto|]. intros bs cs Hs. simpl. constructor; auto.
Qed.
Lemma mone_R (r : R) : nmul (nopp none_) r = (-1 * r)%R.
Proof. rewrite nmul_R, nopp_R, none_R. lra. Qed.

Definition dims (m : nat) : Prop := 1 <= m <= 2 /\ D <= 1 \/ 3 <= m /\ m = S D.
Lemma dY_E F ref : okm F -> okv ref -> dims (length ref) -> rowsD F ref -> length F <= N ->
  rsim EEE (hypervolume_dY minf argsort F ref) (hypervolume_dY minr asr (dmat F) (dvec ref)).
Proof.
  intros HF Hr HD HR HN. unfold dims in HD. unfold hypervolume_dY. rewrite dvec_len, dmat_len.
  destruct (length ref) as [|[|[|d]]] eqn:L; [lia| | |].
  - simpl. constructor; [|constructor]. constructor; [|constructor]. apply E_mone.
  - simpl. apply dY2_E; auto. lia.
  - apply map_res_rsim. intros i Hi. apply in_seq in Hi. apply map_res_rsim. intros k Hk. apply in_seq in Hk.
    rewrite project_val by (apply okm_finm; auto). destruct (project k i F ref) as [[[[y F_] r] ix]|e] eqn:EP; cbn [bind prmap]; [|simpl; auto].
    destruct (project_okD k i F ref y F_ r ix EP) as (O1 & O2 & O3 & L1 & L2 & R1 & LN); auto; try lia.
    apply (rsim_bind E).
    + apply E_impr; auto; [lia|lia|simpl; lia| |].
      * intros p [<-|Hp]; auto.
      * intros p [<-|Hp]; auto.
    + intros a b Hab. simpl rsim. rewrite mone_R. apply E_neg; auto.
Qed.

Lemma rowlen_val m Y : forallb (fun p => length p =? m) (dmat Y) = forallb (fun p => length p =? m) Y.
Proof. induction Y as [|p Y IH]; simpl; auto. rewrite IH, dvec_len. auto. Qed.
Lemma EE_zero m : EE (repeat nzero m) (repeat nzero m).
Proof. induction m; simpl; constructor; auto. Qed.

Lemma gather_ok F ix : okm F -> okm (gather [] F ix).
Proof. intros H p Hp. apply gather_rows in Hp as [Hp| ->]; [auto|intros x []]. Qed.
Lemma argmin_lt (l : list R) i : argmin l = Ok i -> i < length l.
Proof.
  destruct l as [|x l]; [discriminate|]. cbn [argmin]. intros [= <-].
  assert (H : forall (l : list R) pos best b, best < pos -> argmin_aux l pos best b < pos + length l).
  { induction l0 as [|z l0 IH]; intros pos best b Hb; cbn [argmin_aux length]; [lia|].
    destruct (nltb z b); [specialize (IH (S pos) pos z)|specialize (IH (S pos) best b)]; lia. }
  specialize (H l 1 0 x). simpl. lia.
Qed.
Lemma concat_one {A} (P : list (list A)) : (forall p, In p P -> length p = 1) -> length (concat P) = length P.
Proof. induction P as [|p P IH]; intros H; simpl; auto. rewrite app_length, IH, (H p) by (intros; try apply H; simpl; auto). auto. Qed.
Lemma nd_range m (P : list (list double)) nd : okm P -> P <> [] -> 1 <= m -> (forall p, In p P -> length p = m) ->
  nondominated_indices m P = Ok nd -> (forall j, In j nd -> j < length P) /\ length nd <= length P.
Proof.
  intros HP Hne Hm HL EN. assert (HH : NoDup nd /\ forall j, In j nd -> j < length P).
  2:{ destruct HH as [ND HJ]. split; auto. rewrite <- (seq_length (length P) 0). apply NoDup_incl_length; auto. intros j Hj. apply in_seq. specialize (HJ j Hj). lia. } rewrite <- nondominated_indices_val in EN by (apply okm_finm; auto). unfold nondominated_indices in EN.
  assert (HL' : forall p, In p (dmat P) -> length p = m). { intros p Hp. apply in_map_iff in Hp as (q & <- & Hq). rewrite dvec_len. auto. }
  destruct (m =? 1) eqn:Em.
  - apply Nat.eqb_eq in Em. subst m. destruct (argmin (concat (dmat P))) as [a|] eqn:Ea; cbn [bind] in EN; [|discriminate]. injection EN as <-.
    split; [repeat constructor; simpl; auto|]. intros j [<-|[]]. apply argmin_lt in Ea. rewrite concat_one, dmat_len in Ea by auto. auto.
  - apply Nat.eqb_neq in Em. destruct (first_front_spec (dmat P) m) as (l & El & HND & H); auto; [|lia|].
    { intros C. apply Hne. destruct P; auto; discriminate. }
    rewrite El in EN. injection EN as <-. split; auto. intros j Hj. rewrite <- (dmat_len P). apply H in Hj. apply Hj.
Qed.

Theorem HVdY_sim Y ref : Y <> [] -> okm Y -> okv ref -> dims (length ref) -> rowsD Y ref -> length Y <= N ->
  rsim EEE (compute_HVdY minf argsort (length ref) Y ref) (compute_HVdY minr asr (length ref) (dmat Y) (dvec ref)).
Proof.
  intros Hne HY Hr HD HR HN. assert (H1 : 1 <= length ref) by (unfold dims in HD; lia). unfold compute_HVdY. rewrite rowlen_val, dmat_len. destruct (negb _); [simpl; auto|].
  rewrite nondominated_indices_val by (apply okm_finm; auto). destruct (nondominated_indices _ Y) as [nd|e] eqn:EN; cbn [bind]; [|simpl; auto].
  destruct (nd_range _ Y nd HY Hne H1 HR EN) as [Hnd Hln].
  rewrite gather_dmat. apply (rsim_bind EEE).
  - apply dY_E; auto; [apply gather_ok; auto| |unfold gather; rewrite map_length; lia]. intros p Hp. apply in_map_iff in Hp as (j & <- & Hj). apply HR, nth_In. auto.
  - intros g g' Hg. simpl rsim. apply Forall2_map_seq. intros i _. apply scatter_E; auto. apply EE_zero.
Qed.

(** * Hessian *)
Lemma clip_val y r p : finv y -> finv r -> finv p -> clip (dvec y) (dvec r) (dvec p) = dvec (clip y r p).
Proof.
  unfold clip. intros Hy Hr Hp.
  assert (HM : forall a b, finv a -> finv b -> map2 nmax (dvec a) (dvec b) = dvec (map2 nmax a b) /\ finv (map2 nmax a b)).
  { induction a as [|x a IH]; intros [|z b] Ha Hb; try (split; [reflexivity|intros ? []]).
    destruct (IH b) as [I1 I2]; [intros ? ?; apply Ha; simpl; auto|intros ? ?; apply Hb; simpl; auto|].
    assert (Fx : is_finite x = true) by (apply Ha; simpl; auto). assert (Fz : is_finite z = true) by (apply Hb; simpl; auto).
    cbn [map2 dvec map]. fold (dvec a) (dvec b). rewrite I1. unfold nmax at 1 3. rewrite <- fin_ltb by auto. split.
    - destruct (nltb x z); auto.
    - intros w [<-|Hw]; auto. unfold nmax. destruct (nltb x z); auto. }
  assert (Hm : forall a b, finv a -> finv b -> map2 nmin (dvec a) (dvec b) = dvec (map2 nmin a b)).
  { induction a as [|x a IH]; intros [|z b] Ha Hb; try reflexivity.
    assert (Fx : is_finite x = true) by (apply Ha; simpl; auto). assert (Fz : is_finite z = true) by (apply Hb; simpl; auto).
    cbn [map2 dvec map]. fold (dvec a) (dvec b). rewrite IH; [|intros ? ?; apply Ha; simpl; auto|intros ? ?; apply Hb; simpl; auto].
    unfold nmin at 1 3. rewrite <- fin_ltb by auto. destruct (nltb z x); auto. }
  destruct (HM p y Hp Hy) as [-> HF]. apply Hm; auto.
Qed.
Lemma map2_in {A B C} (f : A -> B -> C) a b z : In z (map2 f a b) -> exists x y, In x a /\ In y b /\ z = f x y.
Proof.
  revert b. induction a as [|x a IH]; intros [|y b] H; cbn [map2] in H; try (exfalso; exact H). destruct H as [H|H]; [exists x, y; simpl; auto|].
  apply IH in H as (u & v & H1 & H2 & ->). exists u, v. simpl. auto.
Qed.
Lemma clip_ok y r p : okv y -> okv r -> okv p -> okv (clip y r p).
Proof.
  intros Hy Hr Hp z Hz. apply map2_in in Hz as (u & v & Hu & Hv & ->). apply map2_in in Hu as (s & t & Hs & Ht & ->).
  unfold nmin, nmax. destruct (nltb v _); auto. destruct (nltb s t); auto.
Qed.
Lemma map2_len {A B C} (f : A -> B -> C) a b : length a = length b -> length (map2 f a b) = length a.
Proof. revert b. induction a as [|x a IH]; intros [|y b]; simpl; intros H; auto; discriminate. Qed.
Lemma clip_len (y r p : list double) : length y = length r -> length p = length r -> length (clip y r p) = length r.
Proof. intros H1 H2. unfold clip. rewrite !map2_len; rewrite ?map2_len; congruence. Qed.

Lemma insert_at_E k v v' : EE v v' -> rsim EE (insert_at k nzero v) (insert_at k (nzero : R) v').
Proof.
  revert v v'. induction k as [|k IH]; intros v v' H; cbn [insert_at]; [simpl; constructor; auto|].
  destruct H as [|a b v v' Hab Hv]; [simpl; auto|]. apply (rsim_bind EE); [apply IH; auto|]. intros r r' Hr. simpl. constructor; auto.
Qed.
Lemma assign_block_E m v v' : EE v v' -> rsim EE (assign_block m v) (assign_block m v').
Proof.
  intros H. unfold assign_block. assert (L : length v = length v') by (induction H; simpl; auto). rewrite L.
  destruct (length v' =? m); [auto|]. destruct H as [|a b v v' Hab Hv]; [simpl; auto|]. destruct Hv; [|simpl; auto].
  simpl. clear L. induction m; simpl; constructor; auto.
Qed.
Lemma filter_combine_E (q : nat * list double -> bool) (q' : nat * list R -> bool) nd g g' : (forall i a b, q (i, a) = q' (i, b)) -> EEE g g' ->
  EEE (map snd (filter q (combine nd g))) (map snd (filter q' (combine nd g'))).
Proof.
  intros Hq H. revert nd. induction H as [|a b g g' Hab Hg IH]; intros [|i nd]; cbn [combine filter map]; try constructor.
  rewrite (Hq i a b). destruct (q' (i, b)); cbn [map snd]; [constructor|]; auto.
Qed.
Lemma concat_E g g' : EEE g g' -> EE (concat g) (concat g').
Proof. induction 1; simpl; [constructor|]. apply Forall2_app; auto. Qed.
Lemma neg_E v v' : EE v v' -> EE (map (nmul (nopp none_)) v) (map (nmul (nopp none_)) v').
Proof. induction 1; cbn [map]; constructor; auto. Qed.
Lemma mask_row : forall (p y : list double) (a : list double) (b : list R), finv p -> finv y -> EE a b ->
  EE (map2 (fun px ye => if nltb px (fst ye) then nzero else snd ye) p (combine y a))
     (map2 (fun px ye => if nltb px (fst ye) then nzero else snd ye) (dvec p) (combine (dvec y) b)).
Proof.
  induction p as [|x p IH]; intros [|z y] a b Hp Hy H; destruct H as [|u w a b Huw H]; cbn [dvec map combine map2]; try constructor.
  - cbn [fst snd]. rewrite <- fin_ltb by ((apply Hp; left; reflexivity) || (apply Hy; left; reflexivity)). destruct (nltb x z); auto.
  - apply IH; auto; [intros ? ?; apply Hp|intros ? ?; apply Hy]; simpl; auto.
Qed.
Lemma mask_E (F : list (list double)) y g g' : finm F -> finv y -> EEE g g' ->
  EEE (map2 (fun p row => map2 (fun px ye => if nltb px (fst ye) then nzero else snd ye) p (combine y row)) F g)
      (map2 (fun p row => map2 (fun px ye => if nltb px (fst ye) then nzero else snd ye) p (combine (dvec y) row)) (dmat F) g').
Proof.
  intros HF Hy H. revert F HF. induction H as [|a b g g' Hab Hg IH]; intros [|p F] HF; cbn [dmat map map2]; constructor.
  - apply mask_row; auto. apply HF; simpl; auto.
  - apply IH. intros q Hq. apply HF; simpl; auto.
Qed.
Lemma map_res_E2 k g g' : EEE g g' -> rsim EEE (map_res (insert_at k nzero) g) (map_res (insert_at k (nzero : R)) g').
Proof.
  induction 1 as [|a b g g' Hab Hg IH]; cbn [map_res]; [constructor|].
  apply (rsim_bind EE); [apply insert_at_E; auto|]. intros u v Huv. apply (rsim_bind EEE); [apply IH|].
  intros us vs Hs. simpl. constructor; auto.
Qed.

Lemma hess_column_E Y ref i k : okm Y -> okv ref -> 2 <= length ref -> dims (length ref - 1) -> rowsD Y ref -> length Y <= N ->
  i < length Y -> k < length ref ->
  rsim EEE (hess_column minf argsort (length ref) Y ref i k) (hess_column minr asr (length ref) (dmat Y) (dvec ref) i k).
Proof.
  intros HY Hr H2 HD HR HN Hi Hk. unfold hess_column. rewrite project_val by (apply okm_finm; auto).
  destruct (project k i Y ref) as [[[[y F_] r] ix]|e] eqn:EP; cbn [bind prmap]; [|simpl; auto].
  destruct (project_okD k i Y ref y F_ r ix EP) as (O1 & O2 & O3 & L1 & L2 & R1 & LN); auto.
  rewrite <- L1 in HD.
  assert (OY : okm (y :: F_)) by (intros p [<-|Hp]; auto).
  assert (RY : rowsD (y :: F_) r) by (intros p [<-|Hp]; auto).
  change (dvec y :: dmat F_) with (dmat (y :: F_)). rewrite dvec_len, nondominated_indices_val by (apply okm_finm; auto).
  destruct (nondominated_indices _ (y :: F_)) as [nd|e] eqn:EN; cbn [bind]; [|simpl; auto].
  destruct (nd_range (length r) (y :: F_) nd OY ltac:(discriminate) ltac:(lia) RY EN) as [Hnd Hln]. simpl in Hln.
  rewrite gather_dmat. apply (rsim_bind EEE).
  { apply dY_E; auto; [apply gather_ok; auto| |unfold gather; rewrite map_length; lia]. intros p Hp. apply in_map_iff in Hp as (j & <- & Hj). apply RY, nth_In. auto. }
  intros g g' Hg. apply (rsim_bind EE).
  { apply insert_at_E, neg_E, concat_E, filter_combine_E; auto. }
  intros o o' Ho. apply (rsim_bind EE); [apply assign_block_E; auto|]. clear o o' Ho. intros o o' Ho.
  assert (EC : map (clip (dvec y) (dvec r)) (dmat F_) = dmat (map (clip y r) F_)).
  { unfold dmat at 1 2. rewrite !map_map. apply map_ext_in. intros p Hp. apply clip_val; [intros x Hx; apply ok_fin; auto|intros x Hx; apply ok_fin; auto|].
    intros x Hx. apply ok_fin, (O2 p Hp x Hx). }
  rewrite EC. apply (rsim_bind EEE).
  { apply dY_E; auto; [| |rewrite map_length; lia].
    - intros p Hp. apply in_map_iff in Hp as (q & <- & Hq). apply clip_ok; auto.
    - intros p Hp. apply in_map_iff in Hp as (q & <- & Hq). apply clip_len; auto. }
  intros g2 g2' Hg2. apply (rsim_bind EEE).
  { apply map_res_E2, mask_E; auto; [apply okm_finm; auto|intros x Hx; apply ok_fin; auto]. }
  intros g4 g4' Hg4. simpl rsim. rewrite dmat_len. apply Forall2_map_seq. intros j _. apply scatter_E; auto.
  destruct (j =? i); auto. apply EE_zero.
Qed.

Theorem HVdY2_sim Y ref : okm Y -> okv ref -> 2 <= length ref -> dims (length ref - 1) -> rowsD Y ref -> length Y <= N ->
  rsim (Forall2 (Forall2 EEE)) (compute_HVdY2 minf argsort (length ref) Y ref) (compute_HVdY2 minr asr (length ref) (dmat Y) (dvec ref)).
Proof.
  intros HY Hr H2 HD HR HN. unfold compute_HVdY2. rewrite rowlen_val, dmat_len. destruct (negb _); [simpl; auto|].
  rewrite nondominated_indices_val by (apply okm_finm; auto). destruct (nondominated_indices _ Y) as [nd|e] eqn:EN; cbn [bind]; [|simpl; auto].
  apply map_res_rsim. intros i Hi. apply in_seq in Hi. destruct (existsb _ nd).
  - apply map_res_rsim. intros k Hk. apply in_seq in Hk. apply hess_column_E; auto; lia.
  - assert (HR2 : forall {A B} (S : A -> B -> Prop) n a b, S a b -> Forall2 S (repeat a n) (repeat b n)) by (intros A B S; induction n; simpl; constructor; auto).
    simpl rsim. apply HR2, HR2, EE_zero.
Qed.
End Sim.
