From Coq Require Import String List Arith Bool Reals ZArith Lia Lra.
From Verif Require Import Num Exn ListAux NewtonModel NewtonProof RefModel RefProof MoeaModel MoeaSpec MoeaProof.
Import ListNotations.
Open Scope R_scope.

(** * argmin *)
Lemma fle_refl a : a <> NaN -> fle a a = true.
Proof. destruct a; simpl; auto; try congruence. intros _. unfold rleb. match goal with |- context[Rle_dec ?r ?r] => destruct (Rle_dec r r) end; auto. lra. Qed.
Lemma fle_trans a b c : fle a b = true -> fle b c = true -> fle a c = true.
Proof. destruct a, b, c; simpl; auto; try discriminate. unfold rleb. destruct (Rle_dec r r0), (Rle_dec r0 r1), (Rle_dec r r1); auto. lra. Qed.
Lemma fle_total a b : a <> NaN -> b <> NaN -> fle a b = true \/ fle b a = true.
Proof. destruct a, b; simpl; auto; try congruence. unfold rleb. destruct (Rle_dec r r0), (Rle_dec r0 r); auto. lra. Qed.
Lemma argmin_from_spec l : forall best bv pre, length pre = length pre -> nth_error pre best = Some bv -> (best < length (pre ++ l))%nat ->
  let k := argmin_from best bv (length pre) l in
  (k < length (pre ++ l))%nat /\ ((forall v, In v (pre ++ l) -> v <> NaN) -> (forall v, In v pre -> fle bv v = true) ->
     forall v, In v (pre ++ l) -> fle (nth k (pre ++ l) NaN) v = true).
Proof.
  induction l as [|v l IH]; intros best bv pre _ Hb Hl; cbv zeta.
  - assert (E : argmin_from best bv (length pre) [] = best) by (destruct bv; auto). rewrite E. split; auto. intros _ Hm u Hu. rewrite app_nil_r in *. rewrite (nth_error_nth _ _ _ Hb). auto.
  - assert (Hlt : (length pre < length (pre ++ v :: l))%nat) by (rewrite app_length; simpl; lia).
    assert (Epre : pre ++ v :: l = (pre ++ [v]) ++ l) by (rewrite <- app_assoc; auto).
    assert (Hb' : nth_error (pre ++ [v]) best = Some bv) by (rewrite nth_error_app1; auto; apply nth_error_Some; congruence).
    assert (Hv' : nth_error (pre ++ [v]) (length pre) = Some v) by (rewrite nth_error_app2, Nat.sub_diag; auto).
    assert (Ls : S (length pre) = length (pre ++ [v])) by (rewrite app_length; simpl; lia).
    assert (Main : bv <> NaN -> v <> NaN -> let k := if flt v bv then argmin_from (length pre) v (S (length pre)) l else argmin_from best bv (S (length pre)) l in
      (k < length (pre ++ v :: l))%nat /\ ((forall v0, In v0 (pre ++ v :: l) -> v0 <> NaN) -> (forall v0, In v0 pre -> fle bv v0 = true) -> forall v0, In v0 (pre ++ v :: l) -> fle (nth k (pre ++ v :: l) NaN) v0 = true)).
    { intros Nb Nv. cbv zeta. rewrite Ls. destruct (flt v bv) eqn:Ef.
      - rewrite Epre in *. destruct (IH (length pre) v (pre ++ [v]) eq_refl Hv' Hlt) as [I1 I2]. split; auto. intros HN Hm. apply I2; auto.
        intros u Hu. apply in_app_or in Hu. unfold flt in Ef. apply andb_true_iff in Ef. destruct Ef as [Ef _]. destruct Hu as [Hu|[<-|[]]]; [eapply fle_trans; eauto|apply fle_refl; auto].
      - rewrite Epre in *. destruct (IH best bv (pre ++ [v]) eq_refl Hb' Hl) as [I1 I2]. split; auto. intros HN Hm. apply I2; auto.
        intros u Hu. apply in_app_or in Hu. destruct Hu as [Hu|[<-|[]]]; auto. unfold flt in Ef. destruct (fle_total bv v) as [H|H]; auto. rewrite H in Ef. simpl in Ef. destruct (fle bv v); auto. }
    destruct bv eqn:Ebv; try (destruct v eqn:Ev; [apply Main; congruence|apply Main; congruence|apply Main; congruence|]); cbn [argmin_from].
    + split; auto. intros HN. exfalso. apply (HN NaN); auto. apply in_or_app; simpl; auto.
    + split; auto. intros HN. exfalso. apply (HN NaN); auto. apply in_or_app; simpl; auto.
    + split; auto. intros HN. exfalso. apply (HN NaN); auto. apply in_or_app; simpl; auto.
    + split; auto. intros HN. exfalso. apply (HN NaN); auto. apply in_or_app; left. eapply nth_error_In; eauto.
Qed.
Lemma argmin_spec l k : np_argmin l = Ok k -> (k < length l)%nat /\ ((forall v, In v l -> v <> NaN) -> forall v, In v l -> fle (nth k l NaN) v = true).
Proof.
  destruct l as [|v t]; [discriminate|]. cbn [np_argmin]. intros E. injection E as <-. destruct (argmin_from_spec t 0 v [v] eq_refl eq_refl) as [H1 H2]; [simpl; lia|]. cbn [app length] in *. split; auto.
  intros HN u Hu. apply H2; auto. intros w [<-|[]]. apply fle_refl. apply HN. simpl; auto.
Qed.
Lemma argmin_total l : l <> [] -> exists k, np_argmin l = Ok k.
Proof. destruct l; [congruence|]. simpl. eauto. Qed.

(** * survival *)
Lemma shrink_spec contrib n have L : (have <= n)%nat -> (forall h, (length h <= L)%nat -> length (contrib h) + length h = L)%nat ->
  forall fuel h front, (length front < fuel)%nat -> (length front + length h = L)%nat ->
  exists f', shrink fuel contrib n have h front = Ok f' /\ (have + length f' = Nat.min n (have + length front))%nat /\ incl f' front /\ (NoDup front -> NoDup f').
Proof.
  intros Hn Hc. induction fuel as [|fuel IH]; intros h front Hf Hl; [lia|]. cbn [shrink]. destruct (Nat.ltb_spec n (have + length front)).
  - specialize (Hc h ltac:(lia)) as Hch. destruct (argmin_total (contrib h)) as (k & Ek); [intros E; rewrite E in Hch; simpl in Hch; lia|]. rewrite Ek. cbn [bind]. apply argmin_spec in Ek. destruct Ek as [Hk _].
    assert (Hkf : (k < length front)%nat) by lia. destruct (np_delete front (Z.of_nat k)) as [f1|] eqn:E1.
    + apply np_delete_ok in E1. destruct E1 as (i & [Hi Hi2] & a & x & b & -> & -> & La). cbn [bind]. destruct (IH (k :: h) (a ++ b)) as (f' & E & Hlen & Hin & Hnd).
      * rewrite app_length in *. simpl in *. lia.
      * rewrite app_length in *. simpl in *. lia.
      * exists f'. split; auto. split; [rewrite Hlen; rewrite !app_length in *; simpl in *; lia|]. split.
        -- intros y Hy. apply Hin in Hy. apply in_app_or in Hy. apply in_or_app. simpl. tauto.
        -- intros Hnd'. apply Hnd. apply NoDup_remove_1 in Hnd'. auto.
    + exfalso. assert (np_delete front (Z.of_nat k) = Ok (drop_at k front)); [|congruence]. unfold np_delete. rewrite (proj2 (norm_index_ok _ _ k)); auto. split; [auto|left; auto].
  - exists front. split; auto. split; [lia|]. split; [apply incl_refl|auto].
Qed.
Lemma survive_loop_spec contrib n all : forall fronts q surv, (length surv <= n)%nat ->
  (forall i h, (i < length fronts)%nat -> (length h <= length (nth i fronts []))%nat -> length (contrib (q + i)%nat h) + length h = length (nth i fronts []))%nat ->
  NoDup (surv ++ concat fronts) -> incl (surv ++ concat fronts) all ->
  exists out, survive_loop contrib n q surv fronts = Ok out /\ length out = Nat.min n (length surv + length (concat fronts)) /\ NoDup out /\
    exists r part, out = surv ++ concat (firstn r fronts) ++ part /\ incl part (nth r fronts []).
Proof.
  induction fronts as [|f t IH]; intros q surv Hs Hc Hnd Hin; cbn [survive_loop].
  - exists surv. split; auto. cbn [concat length] in *. split; [lia|]. rewrite app_nil_r in Hnd. split; auto. exists 0%nat, []. rewrite !app_nil_r. split; auto. intros x [].
  - assert (Hc0 : forall h, (length h <= length f)%nat -> (length (contrib q h) + length h = length f)%nat) by (intros h Hh; specialize (Hc 0%nat h ltac:(simpl; lia) Hh); rewrite Nat.add_0_r in Hc; auto).
    destruct (shrink_spec (contrib q) n (length surv) (length f) Hs Hc0 (S (length f)) [] f ltac:(lia) ltac:(simpl; lia)) as (f' & Ef & Lf & If & Nf).
    assert (Ef' : (if (n <? length surv + length f)%nat then shrink (S (length f)) (contrib q) n (length surv) [] f else Ok f) = Ok f').
    { destruct (Nat.ltb_spec n (length surv + length f)); auto. cbn [shrink] in Ef. destruct (Nat.ltb_spec n (length surv + length f)); [lia|]. auto. }
    rewrite Ef'. cbn [bind]. cbn [concat] in *. apply NoDup_app_iff in Hnd. destruct Hnd as (Ns & Nft & Dis). apply NoDup_app_iff in Nft. destruct Nft as (Nf0 & Nt & Dft).
    assert (Nd : NoDup ((surv ++ f') ++ concat t)).
    { apply NoDup_app_iff. split; [|split; auto].
      - apply NoDup_app_iff. split; auto. split; auto. intros x Hx Hx'. apply (Dis x Hx). apply in_or_app. left. auto.
      - intros x Hx Hx'. apply in_app_or in Hx. destruct Hx as [Hx|Hx]; [apply (Dis x Hx); apply in_or_app; auto|apply (Dft x); auto]. }
    destruct (IH (S q) (surv ++ f')) as (out & Eo & Lo & No & r & part & Ep & Ip).
    + rewrite app_length. lia.
    + intros i h Hi Hh. specialize (Hc (S i) h ltac:(simpl; lia) Hh). replace (S q + i)%nat with (q + S i)%nat by lia. auto.
    + auto.
    + intros x Hx. apply Hin. apply in_app_or in Hx. destruct Hx as [Hx|Hx]; [apply in_app_or in Hx; destruct Hx; apply in_or_app; auto; right; apply in_or_app; left; auto|apply in_or_app; right; apply in_or_app; auto].
    + exists out. split; auto. split; [rewrite Lo, !app_length; lia|]. split; auto.
      destruct (Nat.ltb_spec n (length surv + length f)) as [Hlt|Hge].
      * exists 0%nat, f'. assert (Hout : length out = length (surv ++ f')) by (rewrite Lo, app_length; lia). subst out. rewrite !app_length in Hout.
        assert (concat (firstn r t) = [] /\ part = []) as [E1 E2] by (split; apply length_zero_iff_nil; lia). rewrite E1, E2. cbn [firstn concat app nth]. rewrite !app_nil_r. split; auto.
      * assert (f' = f) by congruence. subst f'. exists (S r), part. split; [|auto]. rewrite Ep. cbn [firstn concat]. rewrite <- !app_assoc. auto.
Qed.

(** * domination *)
Lemma rltb_iff a b : rltb a b = true <-> a < b.
Proof. unfold rltb. destruct (Rlt_dec a b); split; auto; discriminate. Qed.
Lemma rltb_false a b : rltb a b = false <-> b <= a.
Proof. unfold rltb. destruct (Rlt_dec a b); split; auto; try discriminate; lra. Qed.
Lemma relation_spec a : forall b v, length a = length b -> (v = 0 \/ v = 1 \/ v = -1)%Z ->
  (relation_from v a b = 1%Z <-> Forall2 Rle a b /\ (v = 1%Z \/ (v = 0%Z /\ a <> b))) /\
  (relation_from v a b = (-1)%Z <-> Forall2 Rle b a /\ (v = (-1)%Z \/ (v = 0%Z /\ a <> b))).
Proof.
  induction a as [|x a IH]; intros [|y b] v H Hv; simpl in H; try lia.
  - cbn [relation_from]. split; (split; [intros ->; split; auto|intros [_ [->|[-> Hn]]]; auto; congruence]).
  - injection H as H. cbn [relation_from]. destruct (rltb x y) eqn:E1; [|destruct (rltb y x) eqn:E2].
    + apply rltb_iff in E1. destruct (Z.eqb_spec v (-1)) as [->|Hne].
      * split; (split; [discriminate|]).
        -- intros [_ [H1|[H1 _]]]; discriminate.
        -- intros [HF _]. inversion HF; subst. lra.
      * destruct (IH b 1%Z H ltac:(auto)) as [I1 I2]. rewrite I1, I2. split.
        -- split; [intros [HF _]; split; [constructor; [lra|auto]|]|intros [HF _]; inversion HF; auto]. destruct Hv as [-> | [-> | ->]]; [right|left|]; auto; [|lia]. split; auto. intros E. injection E as E _. lra.
        -- split; [intros [_ [Hx|[Hx _]]]; discriminate|]. intros [HF _]. inversion HF; subst. lra.
    + apply rltb_iff in E2. apply rltb_false in E1. destruct (Z.eqb_spec v 1) as [->|Hne].
      * split; (split; [discriminate|]).
        -- intros [HF _]. inversion HF; subst. lra.
        -- intros [_ [H1|[H1 _]]]; discriminate.
      * destruct (IH b (-1)%Z H ltac:(auto)) as [I1 I2]. rewrite I1, I2. split.
        -- split; [intros [_ [Hx|[Hx _]]]; discriminate|]. intros [HF _]. inversion HF; subst. lra.
        -- split; [intros [HF _]; split; [constructor; [lra|auto]|]|intros [HF _]; inversion HF; auto]. destruct Hv as [-> | [-> | ->]]; [right| |left]; auto; [|lia]. split; auto. intros E. injection E as E _. lra.
    + apply rltb_false in E1. apply rltb_false in E2. assert (x = y) by lra. subst y. destruct (IH b v H Hv) as [I1 I2]. rewrite I1, I2. split.
      * split; (intros [HF Hd]; split; [constructor + inversion HF; auto; lra|]); destruct Hd as [Hd|[Hd Hn]]; auto; right; split; auto; congruence.
      * split; (intros [HF Hd]; split; [constructor + inversion HF; auto; lra|]); destruct Hd as [Hd|[Hd Hn]]; auto; right; split; auto; congruence.
Qed.
Lemma get_relation_spec a b : length a = length b -> (get_relation a b = 1%Z <-> pdom a b) /\ (get_relation a b = (-1)%Z <-> pdom b a).
Proof.
  intros H. destruct (relation_spec a b 0%Z H ltac:(auto)) as [I1 I2]. unfold get_relation, pdom. rewrite I1, I2. split; split; intros [HF Hd]; split; auto.
  - destruct Hd as [Hd|[_ Hd]]; [discriminate|auto].
  - destruct Hd as [Hd|[_ Hd]]; [discriminate|auto].
Qed.
Lemma tourn1_spec pop coin a b s : tourn1 pop coin a b = Ok s -> exists ia ib, nth_error pop a = Some ia /\ nth_error pop b = Some ib /\ (s = a \/ s = b) /\
  (length (i_f ia) = length (i_f ib) -> 0 <= i_cv ia -> 0 <= i_cv ib ->
   (i_cv ia < i_cv ib -> s = a) /\ (i_cv ib < i_cv ia -> s = b) /\
   (i_cv ia = 0 -> i_cv ib = 0 -> (pdom (i_f ia) (i_f ib) -> s = a) /\ (pdom (i_f ib) (i_f ia) -> s = b))).
Proof.
  unfold tourn1. intros E. destruct (nth_res IndexError pop a) as [ia|] eqn:Ea; [|discriminate]. destruct (nth_res IndexError pop b) as [ib|] eqn:Eb; [|discriminate]. cbn [bind] in E. injection E as E.
  apply nth_res_ok in Ea. apply nth_res_ok in Eb. exists ia, ib. split; auto. split; auto. split.
  - destruct (rltb 0 (i_cv ia) || rltb 0 (i_cv ib)); repeat match type of E with context[if ?c then _ else _] => destruct c end; auto.
  - intros Hl Ha Hb. destruct (get_relation_spec (i_f ia) (i_f ib) Hl) as [R1 R2].
    destruct (rltb 0 (i_cv ia)) eqn:Z1; [apply rltb_iff in Z1|apply rltb_false in Z1]; (destruct (rltb 0 (i_cv ib)) eqn:Z2; [apply rltb_iff in Z2|apply rltb_false in Z2]); cbn [orb] in E;
      try (destruct (rltb (i_cv ia) (i_cv ib)) eqn:L1; [apply rltb_iff in L1|apply rltb_false in L1]; [|destruct (rltb (i_cv ib) (i_cv ia)) eqn:L2; [apply rltb_iff in L2|apply rltb_false in L2]]; subst s; repeat split; intros; auto; lra).
    split; [intros; lra|]. split; [intros; lra|]. intros _ _. split; intros HD.
    + apply R1 in HD. rewrite HD in E. simpl in E. auto.
    + apply R2 in HD. rewrite HD in E. simpl in E. auto.
Qed.

(** * MOEA/D *)
Lemma replaced_mem constrained eps N FV offFV CV cv out : replaced constrained eps N FV offFV CV cv = Ok out ->
  length FV = length N -> length offFV = length N -> length CV = length N ->
  exists fmax, (forall f, In f FV \/ In f offFV -> f <= fmax) /\
  forall x, In x out <-> exists i, nth_error N i = Some x /\
    let f := nth i FV 0 in let o := nth i offFV 0 in
    (if constrained then parameter_less fmax o (Rmax (cv - eps) 0) < parameter_less fmax f (Rmax (nth i CV 0 - eps) 0) else o < f).
Proof.
  intros E L1 L2 L3. unfold replaced in E. destruct FV as [|f0 FV']; [discriminate|]. destruct offFV as [|o0 off']; [discriminate|]. remember (f0 :: FV') as FV. remember (o0 :: off') as off.
  set (fmax := Rmax (lmax f0 FV) (lmax o0 off)) in *.
  assert (LM : forall d l f, In f l -> f <= lmax d l). { intros d l. induction l as [|a l IH]; [intros f []|intros f [<-|Hf]]; cbn [lmax fold_right]; [apply Rmax_l|]. apply (Rle_trans _ (lmax d l)); [auto|apply Rmax_r]. }
  exists fmax. split. { intros f [Hf|Hf]; [apply (Rle_trans _ (lmax f0 FV)); [auto|apply Rmax_l]|apply (Rle_trans _ (lmax o0 off)); [auto|apply Rmax_r]]. }
  injection E as <-. set (new := if constrained then _ else FV). set (offnew := if constrained then _ else off).
  assert (Ln : length new = length N) by (unfold new; destruct constrained; auto; rewrite map_length, combine_length; lia).
  assert (Lo : length offnew = length N) by (unfold offnew; destruct constrained; auto; rewrite map_length; lia).
  assert (G : forall x, In x (map (fun q => fst q) (filter (fun q => rltb (fst (snd q)) (snd (snd q))) (combine N (combine offnew new)))) <-> exists i, nth_error N i = Some x /\ nth i offnew 0 < nth i new 0).
  { intros x. rewrite in_map_iff. split.
    - intros ([x' [o f]] & Ex & Hq). cbn [fst] in Ex. subst x'. apply filter_In in Hq. destruct Hq as [Hq Hlt]. cbn [fst snd] in Hlt. apply rltb_iff in Hlt. apply (In_nth _ _ (0%nat, (0, 0))) in Hq. destruct Hq as (i & Hi & En). rewrite combine_length, combine_length in Hi.
      rewrite combine_nth in En by (rewrite combine_length; lia). rewrite combine_nth in En by lia. injection En as E1 E2 E3. exists i. split; [rewrite <- E1; apply nth_error_nth'; lia|]. rewrite E2, E3. auto.
    - intros (i & Hx & Hlt). assert (Hi : (i < length N)%nat) by (apply nth_error_Some; congruence). exists (x, (nth i offnew 0, nth i new 0)). split; auto. apply filter_In. split; [|apply rltb_iff; auto].
      rewrite <- (nth_error_nth _ _ 0%nat Hx). rewrite <- (combine_nth offnew new) by lia. rewrite <- (combine_nth N (combine offnew new) i 0%nat (0, 0)) by (rewrite combine_length; lia). apply nth_In. rewrite !combine_length. lia. }
  intros x. rewrite G. split; intros (i & Hx & Hlt); exists i; (split; [auto|]); assert (Hi : (i < length N)%nat) by (apply nth_error_Some; congruence); cbv zeta; unfold new, offnew in *; destruct constrained; auto.
  - rewrite (nth_map_default _ _ _ 0) in Hlt by lia. rewrite (nth_map_default _ _ _ (0, 0)) in Hlt by (rewrite combine_length; lia). rewrite combine_nth in Hlt by lia. auto.
  - cbv zeta in Hlt. rewrite (nth_map_default _ _ _ 0) by lia. rewrite (nth_map_default _ _ _ (0, 0)) by (rewrite combine_length; lia). rewrite combine_nth by lia. auto.
Qed.
Lemma drain_spec {A} (step : A -> A) has_next n_gen (P : A -> Prop) : forall fuel g s s', (forall s, P s -> has_next s = true -> n_gen s = g -> P (step s)) -> P s ->
  drain step has_next n_gen fuel g s = Ok s' -> P s' /\ (has_next s' = false \/ n_gen s' <> g).
Proof.
  induction fuel as [|f IH]; intros g s s' HP Hs E; cbn [drain] in E; destruct (has_next s) eqn:E1; cbn [andb] in E.
  - destruct (Nat.eqb_spec (n_gen s) g); [discriminate|]. injection E as <-. auto.
  - injection E as <-. auto.
  - destruct (Nat.eqb_spec (n_gen s) g); [|injection E as <-; auto]. apply (IH g (step s)); auto.
  - injection E as <-. auto.
Qed.
Lemma drain_total {A} (step : A -> A) has_next n_gen g : forall fuel s,
  (exists n, (n <= fuel)%nat /\ (has_next (Nat.iter n step s) = false \/ n_gen (Nat.iter n step s) <> g)) -> exists s', drain step has_next n_gen fuel g s = Ok s'.
Proof.
  induction fuel as [|f IH]; intros s (n & Hn & H).
  - assert (n = 0)%nat by lia. subst n. simpl in H. cbn [drain]. destruct H as [-> |H]; [cbn [andb]; eauto|]. apply Nat.eqb_neq in H. rewrite H, andb_false_r. eauto.
  - cbn [drain]. destruct (has_next s && (n_gen s =? g)%nat) eqn:E; [|eauto]. apply IH. destruct n as [|n].
    + simpl in H. apply andb_true_iff in E. destruct E as [E1 E2]. apply Nat.eqb_eq in E2. destruct H; congruence.
    + exists n. split; [lia|]. assert (Es : Nat.iter n step (step s) = Nat.iter (S n) step s) by (clear; induction n; simpl in *; congruence). rewrite Es. auto.
Qed.

(** * factory *)
Section Factory.
Variable act_err : string -> option exn.
Variable import_eff : string -> world -> world * option exn.
Variable class_err : string -> string -> option exn.
Variable build : string -> world -> world * option exn.
Lemma with_jax_restores body w : act_err (w_toolbox w) = None -> (w_toolbox w = jax -> forall w1, w_toolbox w1 = jax -> w_toolbox (fst (body w1)) = jax) ->
  w_toolbox (fst (with_jax act_err body w)) = w_toolbox w.
Proof.
  intros Ha Hj. unfold with_jax. destruct (String.eqb_spec (w_toolbox w) jax) as [E|E].
  - destruct (body w) as [w2 e2] eqn:Eb. cbn [fst]. specialize (Hj E w E). rewrite Eb in Hj. cbn [fst] in Hj. congruence.
  - unfold activate at 1. destruct (act_err jax) as [e|]; [reflexivity|]. destruct (body _) as [w2 e2]. unfold activate. rewrite Ha. reflexivity.
Qed.
(** importing does not switch the toolbox; every module it loads is bound to the active one *)
Hypothesis import_keeps : forall m w, w_toolbox (fst (import_eff m w)) = w_toolbox w.
Hypothesis import_binds : forall m w x b, w_modules (fst (import_eff m w)) x = Some b -> w_modules w x = Some b \/ b = w_toolbox w.
Hypothesis import_loads : forall m w, w_modules w m = None -> snd (import_eff m w) = None -> exists b, w_modules (fst (import_eff m w)) m = Some b.
(** neither do the constructor and the adapter *)
Hypothesis build_keeps : forall k w, fst (build k w) = w.
Notation get := (get_pymoo_problem act_err import_eff class_err build).
Lemma import_type_restores m c w : act_err (w_toolbox w) = None -> w_toolbox (fst (import_type act_err import_eff class_err m c w)) = w_toolbox w.
Proof.
  intros Ha. unfold import_type. destruct (w_modules w m) as [b|]; [destruct (String.eqb b jax); auto|]. apply with_jax_restores; auto.
  intros _ w1 H1. pose proof (import_keeps m w1) as K. destruct (import_eff m w1) as [w2 [e|]]; cbn [fst] in *; congruence.
Qed.
Lemma import_type_modules m c w x b : w_modules (fst (import_type act_err import_eff class_err m c w)) x = Some b -> w_modules w x = Some b \/ b = jax.
Proof.
  unfold import_type. destruct (w_modules w m) as [b0|]; [destruct (String.eqb b0 jax); auto|]. unfold with_jax.
  assert (Body : forall w1, w_toolbox w1 = jax -> w_modules w1 = w_modules w -> forall w2 e, (let (w2, e) := import_eff m w1 in match e with Some e => (w2, Some e) | None => (w2, class_err m c) end) = (w2, e) -> w_modules w2 x = Some b -> w_modules w x = Some b \/ b = jax).
  { intros w1 J M w2 e E Hx. pose proof (import_binds m w1 x b) as B. destruct (import_eff m w1) as [w2' e']. cbn [fst] in B. assert (w2' = w2) by (destruct e'; congruence). subst w2'. rewrite J, M in B. auto. }
  destruct (String.eqb_spec (w_toolbox w) jax) as [E|E].
  - match goal with |- context[let (_, _) := ?b in _] => destruct b as [w2 e2] eqn:Eb end. cbn [fst]. apply (Body w E eq_refl w2 e2 Eb).
  - unfold activate at 1. destruct (act_err jax) as [e|]; [cbn [fst]; auto|]. match goal with |- context[let (_, _) := ?b in _] => destruct b as [w2 e2] eqn:Eb end. unfold activate. specialize (Body (mkW jax (w_modules w)) eq_refl eq_refl w2 e2 Eb). destruct (act_err (w_toolbox w)); cbn [fst w_modules]; auto.
Qed.
Lemma import_type_loaded m c w : snd (import_type act_err import_eff class_err m c w) = None -> w_modules (fst (import_type act_err import_eff class_err m c w)) m = Some jax.
Proof.
  unfold import_type. destruct (w_modules w m) as [b0|] eqn:Em; [destruct (String.eqb_spec b0 jax); cbn [snd fst]; [congruence|discriminate]|]. unfold with_jax.
  assert (Body : forall w1, w_toolbox w1 = jax -> w_modules w1 = w_modules w -> forall w2, (let (w2, e) := import_eff m w1 in match e with Some e => (w2, Some e) | None => (w2, class_err m c) end) = (w2, None) -> w_modules w2 m = Some jax).
  { intros w1 J M w2 E. pose proof (import_loads m w1) as L. pose proof (import_binds m w1 m) as B. destruct (import_eff m w1) as [w2' [e'|]]; [discriminate|]. cbn [fst snd] in *. assert (w2' = w2) by congruence. subst w2'. rewrite M in L, B. destruct (L Em eq_refl) as (b & Hb). rewrite Hb. destruct (B b Hb); congruence. }
  destruct (String.eqb_spec (w_toolbox w) jax) as [E|E].
  - match goal with |- context[let (_, _) := ?b in _] => destruct b as [w2 e2] eqn:Eb end. cbn [fst snd]. intros ->. apply (Body w E eq_refl w2 Eb).
  - unfold activate at 1 3. destruct (act_err jax) as [e|]; [discriminate|]. match goal with |- context[let (_, _) := ?b in _] => destruct b as [w2 e2] eqn:Eb end. unfold activate. specialize (Body (mkW jax (w_modules w)) eq_refl eq_refl w2). destruct (act_err (w_toolbox w)); cbn [fst snd w_modules]; [discriminate|]. intros ->. auto.
Qed.
Lemma get_restores k w : act_err (w_toolbox w) = None -> w_toolbox (fst (get k w)) = w_toolbox w.
Proof.
  intros Ha. unfold get_pymoo_problem. destruct (assoc k registry) as [[m c]|]; auto. pose proof (import_type_restores m c w Ha) as I. destruct (import_type _ _ _ m c w) as [w1 [e|]]; cbn [fst] in *; auto. rewrite build_keeps. auto.
Qed.
Lemma get_modules k w x b : w_modules (fst (get k w)) x = Some b -> w_modules w x = Some b \/ b = jax.
Proof.
  unfold get_pymoo_problem. destruct (assoc k registry) as [[m c]|]; auto. pose proof (import_type_modules m c w x b) as I. destruct (import_type _ _ _ m c w) as [w1 [e|]]; cbn [fst] in *; auto. rewrite build_keeps. auto.
Qed.
Lemma gets_restores ks : forall w, act_err (w_toolbox w) = None -> w_toolbox (fst (get_problems act_err import_eff class_err build ks w)) = w_toolbox w /\
  forall x b, w_modules (fst (get_problems act_err import_eff class_err build ks w)) x = Some b -> w_modules w x = Some b \/ b = jax.
Proof.
  induction ks as [|k ks IH]; intros w Ha; cbn [get_problems]; [split; auto|].
  pose proof (get_restores k w Ha) as G1. pose proof (get_modules k w) as G2. destruct (get k w) as [w1 e]. cbn [fst] in *. destruct (IH w1) as [I1 I2]; [congruence|]. destruct (get_problems _ _ _ _ ks w1) as [w2 es]. cbn [fst] in *. split; [congruence|].
  intros x b Hx. destruct (I2 x b Hx) as [Hx1|]; auto.
Qed.
End Factory.
