(** Derivatives of the hypervolume in decision space. *)
From Coq Require Import List Arith Lia Reals Lra Bool.
From Coquelicot Require Import Coquelicot.
From Verif Require Import Num Exn ListAux NDSModel NDSSpec HVModel HVSpec HVTheory HVTop HVExtra
  HVDModel HVDSpec HVDTheory HVDProof HVDTop HVHTheory HVHProof HVDFacts HVXModel HVXSpec HVXProof HVChain HVSym.
Import ListNotations.
Open Scope R_scope.

Lemma map_set_at {A B} (f : A -> B) i x l : map f (set_at i x l) = set_at i (f x) (map f l).
Proof. revert i. induction l as [|a l IH]; intros [|i]; simpl; auto. f_equal; auto. Qed.

Lemma sumn_derive n (f : nat -> R -> R) t0 (f' : nat -> R) :
  (forall k, (k < n)%nat -> is_derive (f k) t0 (f' k)) -> is_derive (fun t => sumn n (fun k => f k t)) t0 (sumn n f').
Proof.
  induction n as [|n IH]; simpl; intros Hd; [apply @is_derive_const|].
  apply @is_derive_plus; [apply IH|apply Hd]; auto.
Qed.

Lemma locally_all {A} (ix : list A) (P : A -> R -> Prop) t0 :
  (forall a, In a ix -> locally t0 (P a)) -> locally t0 (fun t => forall a, In a ix -> P a t).
Proof.
  induction ix as [|a ix IH]; intros H.
  - apply filter_forall. intros t a [].
  - assert (H1 : locally t0 (P a)) by (apply H; simpl; auto).
    assert (H2 : locally t0 (fun t => forall b, In b ix -> P b t)) by (apply IH; intros; apply H; simpl; auto).
    generalize (filter_and _ _ H1 H2). apply filter_imp. intros t [? ?] b [<-|Hb]; auto.
Qed.
Lemma sumn_plus n f g : sumn n (fun i => f i + g i) = sumn n f + sumn n g.
Proof. induction n as [|n IH]; simpl; [ring|]. rewrite IH. ring. Qed.
Lemma sumn_swap n p (f : nat -> nat -> R) : sumn n (fun i => sumn p (fun k => f i k)) = sumn p (fun k => sumn n (fun i => f i k)).
Proof.
  induction n as [|n IH]; simpl; [symmetry; apply sumn_zero; auto|]. rewrite IH, <- sumn_plus. reflexivity.
Qed.

Section Local.
Variable ref : list R.
Variable F : list (list R).
Hypothesis Hg : good ref F.
Lemma good_local j phi phi' t0 : (j < length F)%nat -> lpath (length ref) phi phi' (nth j F []) t0 ->
  locally t0 (fun t => good ref (set_at j (phi t) F)).
Proof using All.
  destruct Hg as (Hr & HG & Hin). intros Hj (P1 & P2 & P3).
  assert (E0 : forall k, (k < length ref)%nat -> nth k (phi t0) 0 = coord F j k) by (intros; apply P2; auto).
  assert (Hcoord : forall y a c, coord (set_at j y F) a c = if (a =? j)%nat then nth c y 0 else coord F a c).
  { intros. unfold coord. rewrite nth_set_at by auto. destruct (a =? j)%nat; auto. }
  assert (L1 : locally t0 (fun t => forall k, In k (seq 0 (length ref)) -> nth k (phi t) 0 < nth k ref 0)).
  { apply (locally_all (seq 0 (length ref)) (fun k t => nth k (phi t) 0 < nth k ref 0)). intros k Hk. apply in_seq in Hk.
    apply locally_lt; [apply (derive_continuous _ _ (phi' k)), P3; lia|]. rewrite E0 by lia. apply Hin; auto; lia. }
  assert (L2 : locally t0 (fun t => forall k, In k (seq 0 (length ref)) -> forall a, In a (seq 0 (length F)) -> a <> j -> coord F a k <> nth k (phi t) 0)).
  { apply (locally_all (seq 0 (length ref)) (fun k t => forall a, In a (seq 0 (length F)) -> a <> j -> coord F a k <> nth k (phi t) 0)).
    intros k Hk. apply in_seq in Hk.
    apply (locally_all (seq 0 (length F)) (fun a t => a <> j -> coord F a k <> nth k (phi t) 0)).
    intros a Ha. apply in_seq in Ha. destruct (Nat.eq_dec a j) as [->|Hne]; [apply filter_forall; congruence|].
    pose proof (proj1 HG j k Hj ltac:(lia) a ltac:(lia) Hne) as Hx.
    pose proof (derive_continuous _ _ _ (P3 k ltac:(lia))) as Hc.
    destruct (Rlt_dec (coord F a k) (coord F j k)) as [Hl|Hl].
    - generalize (locally_gt _ t0 (coord F a k) Hc ltac:(cbv beta; rewrite E0 by lia; auto)). apply filter_imp. intros; lra.
    - generalize (locally_lt _ t0 (coord F a k) Hc ltac:(cbv beta; rewrite E0 by lia; lra)). apply filter_imp. intros; lra. }
  generalize (filter_and _ _ L1 L2). apply filter_imp. intros t [H1 H2].
  assert (Hin' : inside (set_at j (phi t) F) ref).
  { intros i k Hi Hk. rewrite set_at_length in Hi. rewrite Hcoord. destruct (i =? j)%nat; [|apply Hin; auto].
    apply H1. apply in_seq. lia. }
  split; [|split; [split|exact Hin']].
  - intros p Hp. apply (In_nth _ _ []) in Hp as (a & Ha & <-). rewrite set_at_length in Ha.
    rewrite nth_set_at by auto. destruct (a =? j)%nat; auto. apply Hr, nth_In; auto.
  - intros i k Hi Hk a Ha Hne. rewrite set_at_length in Hi, Ha. rewrite !Hcoord.
    destruct (Nat.eqb_spec a j) as [->|Haj], (Nat.eqb_spec i j) as [->|Hij]; try congruence.
    + apply not_eq_sym. apply H2; auto; apply in_seq; lia.
    + apply H2; auto; apply in_seq; lia.
    + apply (proj1 HG); auto.
  - intros i k Hi Hk. specialize (Hin' i k Hi Hk). lra.
Qed.
End Local.

Section Smooth.
Variables (n : nat) (f : list R -> list R) (J : list R -> nat -> nat -> R) (Hs : list R -> nat -> nat -> nat -> R) (ref : list R).
Hypothesis Hm2 : (2 <= length ref)%nat.
Hypothesis Hmaps : maps n (length ref) f.

Lemma point_lpath x v : length x = n -> (v < n)%nat -> jac_at n (length ref) f (J x) x ->
  lpath (length ref) (fun t => f (set_at v t x)) (fun k => J x k v) (f x) (nth v x 0).
Proof using Hm2 Hmaps.
  intros Hx Hv Hj. split; [intros; apply Hmaps; rewrite set_at_length; auto|]. split.
  - intros k Hk. f_equal. f_equal. clear. revert v. induction x as [|a x IH]; intros [|v]; simpl; auto. f_equal; auto.
  - intros k Hk. apply Hj; auto.
Qed.

Lemma set_coord_map X i v t : map f (set_coord X i v t) = set_at i (f (set_at v t (nth i X []))) (map f X).
Proof using Hm2 Hmaps. apply map_set_at. Qed.

Lemma nth_map_f X i : (i < length X)%nat -> nth i (map f X) [] = f (nth i X []).
Proof using Hm2 Hmaps. intros Hi. rewrite (nth_indep _ [] (f [])) by (rewrite map_length; auto). apply map_nth. Qed.

Lemma rows_map X : (forall x, In x X -> length x = n) -> rows_ok (map f X) ref.
Proof using Hm2 Hmaps. intros HX p Hp. apply in_map_iff in Hp as (x & <- & Hx). apply Hmaps. auto. Qed.

Lemma rows_set X i v t : (forall x, In x X -> length x = n) -> (i < length X)%nat -> forall x, In x (set_coord X i v t) -> length x = n.
Proof using Hm2 Hmaps.
  intros HX Hi x Hx. apply (In_nth _ _ []) in Hx as (a & Ha & <-). unfold set_coord in *. rewrite set_at_length in Ha.
  rewrite nth_set_at by auto. destruct (a =? i)%nat; [rewrite set_at_length|]; apply HX, nth_In; auto.
Qed.

Lemma grad_X X i v : (forall x, In x X -> length x = n) -> good ref (map f X) -> (i < length X)%nat -> (v < n)%nat ->
  jac_at n (length ref) f (J (nth i X [])) (nth i X []) ->
  is_partial_X f ref X i v (sumn (length ref) (fun k => gradf (map f X) ref i k * J (nth i X []) k v)).
Proof using Hm2 Hmaps.
  intros HX (Hr & HG & Hin) Hi Hv Hj h Hh.
  apply (is_derive_ext (fun t => HVof (set_at i (f (set_at v t (nth i X []))) (map f X)) ref)).
  - intros t. symmetry. rewrite <- set_coord_map. apply is_hv_iff; auto. apply rows_map. apply rows_set; auto.
  - apply HV_path; auto; [rewrite map_length; auto|lia|].
    rewrite nth_map_f by auto. apply point_lpath; auto. apply HX, nth_In; auto.
Qed.

Lemma partial_X_unique X i v g g' : (forall x, In x X -> length x = n) -> (i < length X)%nat ->
  is_partial_X f ref X i v g -> is_partial_X f ref X i v g' -> g = g'.
Proof using Hm2 Hmaps.
  intros HX Hi H1 H2.
  assert (Hh : forall t, is_hypervolume (map f (set_coord X i v t)) ref (HVof (map f (set_coord X i v t)) ref)).
  { intros t. apply is_hv_iff; auto. apply rows_map. apply rows_set; auto. }
  rewrite <- (is_derive_unique _ _ _ (H1 _ Hh)). apply (is_derive_unique _ _ _ (H2 _ Hh)).
Qed.

Variable d : nat.
Hypothesis Hd : length ref = S (S d).

Lemma hess_X X i v j w : (forall x, In x X -> length x = n) -> good ref (map f X) ->
  (i < length X)%nat -> (v < n)%nat -> (j < length X)%nat -> (w < n)%nat ->
  (forall x, length x = n -> jac_at n (length ref) f (J x) x) ->
  hess_at n (length ref) J (Hs (nth i X [])) (nth i X []) ->
  is_second_X f ref X i v j w
    (sumn (length ref) (fun k => sumn (length ref) (fun l => hessf (map f X) ref d i k j l * J (nth j X []) l w) * J (nth i X []) k v
      + gradf (map f X) ref i k * (if (i =? j)%nat then Hs (nth i X []) k v w else 0))).
Proof using All.
  intros HX Hg Hi Hv Hj Hw HJ HH D HD.
  set (Xt := fun t => set_coord X j w t).
  set (Ft := fun t => set_at j (f (set_at w t (nth j X []))) (map f X)).
  assert (Hp : lpath (length ref) (fun t => f (set_at w t (nth j X []))) (fun k => J (nth j X []) k w) (nth j (map f X) []) (coord X j w)).
  { rewrite nth_map_f by auto. apply point_lpath; auto; [apply HX, nth_In; auto|]. apply HJ. apply HX, nth_In; auto. }
  assert (HjF : (j < length (map f X))%nat) by (rewrite map_length; auto).
  assert (HiF : (i < length (map f X))%nat) by (rewrite map_length; auto).
  assert (Hloc := good_local ref (map f X) Hg j _ _ _ HjF Hp).
  apply (is_derive_ext_loc (fun t => sumn (length ref) (fun k => gradf (Ft t) ref i k * J (nth i (Xt t) []) k v))).
  - generalize (filter_and _ _ HD Hloc). apply filter_imp. intros t [H1 H2].
    apply (partial_X_unique (Xt t) i v).
    + apply rows_set; auto.
    + unfold Xt, set_coord. rewrite set_at_length; auto.
    + unfold Ft. rewrite <- set_coord_map. fold (Xt t). apply grad_X.
      * apply rows_set; auto.
      * unfold Xt. rewrite set_coord_map. exact H2.
      * unfold Xt, set_coord. rewrite set_at_length; auto.
      * exact Hv.
      * apply HJ. apply (rows_set X j w t HX Hj). apply nth_In. unfold Xt, set_coord. rewrite set_at_length; auto.
    + exact H1.
  - apply (sumn_derive _ (fun k t => gradf (Ft t) ref i k * J (nth i (Xt t) []) k v)). intros k Hk.
    assert (Hg0 := Hg). destruct Hg0 as (Hr & HG & Hin).
    pose proof (grad_path (map f X) ref d Hr HG Hin Hd i k j _ _ _ HiF Hk HjF Hp) as G1. fold Ft in G1.
    assert (G2 : is_derive (fun t => J (nth i (Xt t) []) k v) (coord X j w) (if (i =? j)%nat then Hs (nth i X []) k v w else 0)).
    { destruct (Nat.eqb_spec i j) as [<-|Hne].
      - destruct (HH k v w Hk Hv Hw) as [H1 _]. eapply is_derive_ext; [|exact H1].
        intros t. cbv beta. unfold Xt, set_coord. rewrite nth_set_at by auto. rewrite Nat.eqb_refl. reflexivity.
      - eapply is_derive_ext; [|apply @is_derive_const].
        intros t. cbv beta. unfold Xt, set_coord. rewrite nth_set_at by auto. destruct (Nat.eqb_spec i j); [congruence|]. reflexivity. }
    assert (E1 : gradf (Ft (coord X j w)) ref i k = gradf (map f X) ref i k).
    { unfold Ft. rewrite <- set_coord_map, set_coord_same by auto. reflexivity. }
    assert (E2 : J (nth i (Xt (coord X j w)) []) k v = J (nth i X []) k v).
    { unfold Xt. rewrite set_coord_same by auto. reflexivity. }
    rewrite <- E1, <- E2.
    apply (is_derive_mult (fun t => gradf (Ft t) ref i k) (fun t => J (nth i (Xt t) []) k v)); auto.
    intros; apply Rmult_comm.
Qed.
End Smooth.

(** * The object *)
Lemma nth_vneg k y : nth k (vneg y) 0 = -1 * nth k y 0.
Proof.
  unfold vneg.
  destruct (Nat.lt_ge_cases k (length y)) as [H|H].
  - rewrite (nth_indep _ 0 ((fun x => -1 * x) 0)) by (rewrite map_length; auto). apply (map_nth (fun x => -1 * x)).
  - rewrite !nth_overflow by (try rewrite map_length; auto). ring.
Qed.

Lemma wrap_maps o m : maps (n_var o) m (o_func o) -> maps (n_var o) m (func o).
Proof. intros H x Hx. unfold func. destruct (minimization o); auto. unfold vneg. rewrite map_length. auto. Qed.
Lemma wrap_jac o m x : jac_at (n_var o) m (o_func o) (o_jac o x) x -> jac_at (n_var o) m (func o) (jac o x) x.
Proof.
  intros H k v Hk Hv. specialize (H k v Hk Hv). unfold func, jac. destruct (minimization o); auto.
  eapply is_derive_ext; [intros t; symmetry; apply nth_vneg|].
  apply (is_derive_scal (fun t => nth k (o_func o (set_at v t x)) 0)). exact H.
Qed.
Lemma wrap_hess o m x : hess_at (n_var o) m (o_jac o) (o_hess o x) x -> hess_at (n_var o) m (jac o) (hessian o x) x.
Proof.
  intros H k v w Hk Hv Hw. destruct (H k v w Hk Hv Hw) as [H1 H2]. unfold jac, hessian. destruct (minimization o); auto.
  split; [|rewrite H2; auto]. apply (is_derive_scal (fun t => o_jac o (set_at w t x) k v)). exact H1.
Qed.

Section Obj.
Variable minf : R.
Variable argsort : list R -> list nat.
Hypothesis Hargsort : argsort_ok argsort.
Variable o : hvobj.
Notation m := (n_obj o).
Notation n := (n_var o).
Hypothesis Hm : (2 <= m)%nat.
Hypothesis Hlref : length (o_ref o) = m.
Hypothesis Hmaps : maps n m (o_func o).
Variable X : list vec.
Hypothesis HXne : X <> [].
Hypothesis HX : forall x, In x X -> length x = n.
Notation Y := (map (func o) X).
Hypothesis HG : general_position Y (oref o).
Hypothesis Hin : inside Y (oref o).
Hypothesis Hab : above_all minf Y (oref o).

Lemma len_oref : length (oref o) = m.
Proof using All. unfold oref. destruct (minimization o); auto. unfold vneg. rewrite map_length; auto. Qed.
Lemma good_Y : good (oref o) Y.
Proof using All.
  split; [|split; auto]. apply (rows_map n (func o) (oref o)); auto; rewrite len_oref; auto. apply wrap_maps; auto.
Qed.

Lemma true_gradient : (forall x, In x X -> jac_at n m (o_func o) (o_jac o x) x) ->
  exists dX g, compute_gradient minf argsort o X None None = Ok (dX, g) /\
  forall i v, (i < length X)%nat -> (v < n)%nat -> is_partial_X (func o) (oref o) X i v (dX (i * n + v)%nat).
Proof using All.
  intros HJ. pose proof len_oref as Hl. pose proof good_Y as Hgood. destruct Hgood as (Hr & _ & _).
  assert (HYne : Y <> []) by (destruct X; [congruence|discriminate]).
  destruct (whole_gradient minf argsort Hargsort Y (oref o) HYne Hr ltac:(lia) Hab (or_intror (or_introl HG)) (fun _ => Hin)) as (g & Eg & Hsh & Hg).
  rewrite Hl in Eg.
  assert (Hc : exists dX, compute_gradient minf argsort o X None None = Ok (dX, g)).
  { unfold compute_gradient. simpl obj_points. rewrite Eg. simpl. eexists. reflexivity. }
  destruct Hc as (dX & Ec). exists dX, g. split; auto. intros i v Hi Hv.
  destruct (gradient_chain minf argsort o X None None dX g Ec) as [_ Hch]. rewrite Hch by auto.
  replace (sumn m _) with (sumn (length (oref o)) (fun k => gradf Y (oref o) i k * jac o (nth i X []) k v)).
  - apply (grad_X n (func o) (jac o)); try rewrite Hl; auto.
    + apply wrap_maps; auto.
    + apply good_Y.
    + apply wrap_jac. apply HJ. apply nth_In; auto.
  - rewrite Hl. apply sumn_ext. intros k Hk. simpl. f_equal. symmetry.
    apply Hg; try (rewrite map_length; auto); try lia. apply (proj1 HG); [rewrite map_length; auto|lia].
Qed.

Lemma true_hessian : (m <= 5)%nat \/ (m = 6%nat /\ argsort_stable argsort) -> (forall x, length x = n -> jac_at n m (o_func o) (o_jac o x) x) ->
  (forall x, In x X -> hess_at n m (o_jac o) (o_hess o x) x) ->
  exists dX dX2, compute_hessian minf argsort o X None None = Ok (dX, dX2) /\
  forall i v j w, (i < length X)%nat -> (v < n)%nat -> (j < length X)%nat -> (w < n)%nat ->
    is_partial_X (func o) (oref o) X i v (dX (i * n + v)%nat) /\
    is_second_X (func o) (oref o) X i v j w (dX2 (i * n + v)%nat (j * n + w)%nat).
Proof using All.
  intros Hm5 HJ HH. pose proof len_oref as Hl. pose proof good_Y as Hgood. assert (Hg0 := Hgood). destruct Hg0 as (Hr & _ & _).
  assert (HYne : Y <> []) by (destruct X; [congruence|discriminate]).
  destruct true_gradient as (dX & g & Ec & Hpart); [intros x Hx; apply HJ; auto|].
  destruct (gradient_chain minf argsort o X None None dX g Ec) as [Eg Hch].
  destruct (whole_gradient minf argsort Hargsort Y (oref o) HYne Hr ltac:(lia) Hab (or_intror (or_introl HG)) (fun _ => Hin)) as (g' & Eg' & Hsh & Hg).
  simpl obj_points in Eg. rewrite Hl, Eg in Eg'. injection Eg' as <-.
  assert (Hm6 : (2 <= length (oref o) <= 5)%nat \/ (length (oref o) = 6%nat /\ argsort_stable argsort)).
  { destruct Hm5 as [Hm5|[Hm5 Hst]]; [left; lia|right; split; [lia|auto]]. }
  destruct (hess_correct minf argsort Hargsort Y (oref o) HYne Hr Hm6 HG Hin Hab) as (H & EH & _ & _ & HHe).
  rewrite Hl in EH.
  assert (Hc : exists dX2, compute_hessian minf argsort o X None None = Ok (dX, dX2)).
  { unfold compute_hessian. rewrite Ec. cbn [bind]. simpl obj_points. rewrite EH. cbn [bind]. eexists. reflexivity. }
  destruct Hc as (dX2 & Ec2). exists dX, dX2. split; auto. intros i v j w Hi Hv Hj Hw. split; [apply Hpart; auto|].
  destruct (hessian_blocks minf argsort o X None None dX dX2 Ec2) as (g' & H' & Ec' & EH' & Hb).
  rewrite Ec in Ec'. injection Ec' as <-. simpl obj_points in EH'. rewrite EH in EH'. injection EH' as <-.
  rewrite Hb by auto.
  assert (Ed : exists d, length (oref o) = S (S d)) by (exists (m - 2)%nat; lia). destruct Ed as (d & Hd).
  assert (HlY : length Y = length X) by apply map_length.
  assert (Hent : forall i k j l, (i < length X)%nat -> (k < m)%nat -> (j < length X)%nat -> (l < m)%nat ->
     nth l (nth j (nth k (nth i H []) []) []) 0 = hessf Y (oref o) d i k j l).
  { intros a k b l Ha Hk Hb' Hl'. rewrite <- HlY in Ha, Hb'. rewrite <- Hl in Hk, Hl'.
    refine (hess_unique Y (oref o) d a k b l _ _ Hr Hd HG Hin Ha Hk Hb' Hl' _ _).
    - apply HHe; auto.
    - apply hess_true; auto. }
  assert (Hgr : forall a k, (a < length X)%nat -> (k < m)%nat -> coord g a k = gradf Y (oref o) a k).
  { intros a k Ha Hk. rewrite <- HlY in Ha. rewrite <- Hl in Hk. apply Hg; auto. apply (proj1 HG); auto. }
  assert (Hsym : forall a k b l, (a < length X)%nat -> (k < m)%nat -> (b < length X)%nat -> (l < m)%nat ->
     hessf Y (oref o) d a k b l = hessf Y (oref o) d b l a k).
  { intros a k b l Ha Hk Hb' Hl'. rewrite <- HlY in Ha, Hb'. rewrite <- Hl in Hk, Hl'. apply hessf_sym; auto. }
  pose proof (hess_X n (func o) (jac o) (hessian o) (oref o) ltac:(lia)) as HX2. rewrite Hl in HX2.
  specialize (HX2 (wrap_maps o m Hmaps) d ltac:(lia) X i v j w HX Hgood Hi Hv Hj Hw (fun x Hx => wrap_jac o m x (HJ x Hx))
    (wrap_hess o m _ (HH _ (nth_In _ _ Hi)))).
  match goal with |- is_second_X _ _ _ _ _ _ _ ?c => match type of HX2 with is_second_X _ _ _ _ _ _ _ ?c' =>
    replace c with c'; [exact HX2|] end end.
  unfold raw_block. simpl obj_jac.
  assert (E1 : sumn m (fun k => sumn m (fun l => jac o (nth i X []) k v * nth k (nth i (nth l (nth j H []) []) []) 0 * jac o (nth j X []) l w))
    = sumn m (fun k => sumn m (fun l => hessf Y (oref o) d i k j l * jac o (nth j X []) l w) * jac o (nth i X []) k v)).
  { apply sumn_ext. intros k Hk. rewrite (Rmult_comm _ (jac o (nth i X []) k v)), <- sumn_scal. apply sumn_ext. intros l Hl'.
    rewrite Hent, Hsym by auto. ring. }
  assert (E2 : sumn m (fun k => sumn m (fun l => jac o (nth j X []) k w * nth k (nth j (nth l (nth i H []) []) []) 0 * jac o (nth i X []) l v))
    = sumn m (fun k => sumn m (fun l => hessf Y (oref o) d i k j l * jac o (nth j X []) l w) * jac o (nth i X []) k v)).
  { rewrite sumn_swap. apply sumn_ext. intros k Hk. rewrite (Rmult_comm _ (jac o (nth i X []) k v)), <- sumn_scal. apply sumn_ext. intros l Hl'.
    rewrite Hent by auto. ring. }
  rewrite E1, E2. rewrite sumn_plus.
  assert (E3 : (if (i =? j)%nat then sumn m (fun k => coord g i k * hessian o (nth i X []) k v w) else 0) =
    sumn m (fun k => gradf Y (oref o) i k * (if (i =? j)%nat then hessian o (nth i X []) k v w else 0))).
  { destruct (i =? j)%nat.
    - apply sumn_ext. intros k Hk. rewrite Hgr by auto. reflexivity.
    - symmetry. apply sumn_zero. intros; ring. }
  assert (E4 : (if (j =? i)%nat then sumn m (fun k => coord g j k * hessian o (nth j X []) k w v) else 0) =
    sumn m (fun k => gradf Y (oref o) i k * (if (i =? j)%nat then hessian o (nth i X []) k v w else 0))).
  { destruct (Nat.eqb_spec j i) as [->|Hne].
    - rewrite Nat.eqb_refl. apply sumn_ext. intros k Hk. rewrite Hgr by auto. f_equal.
      apply (wrap_hess o m _ (HH _ (nth_In _ _ Hi)) k w v); auto.
    - destruct (Nat.eqb_spec i j); [congruence|]. symmetry. apply sumn_zero. intros; ring. }
  rewrite E3, E4.
  match goal with |- ?a + ?b = _ => transitivity ((a + b + (a + b)) / 2); [|reflexivity]; generalize a b; intros; field end.
Qed.
End Obj.
