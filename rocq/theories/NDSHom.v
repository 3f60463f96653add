(** The non-dominated sorting only compares numbers: the model commutes with every map that
    preserves the order (used to carry the theorems over to floating point numbers). *)
From Coq Require Import List Arith Lia Bool.
From Verif Require Import Num Exn NDSModel UtilsModel HVHom.
Import ListNotations.
Open Scope nat_scope.

Class OrdHom {T U} `{NT : Num T} `{NU : Num U} (h : T -> U) := mkOrdHom {
  ohom_zero : h nzero = nzero;
  ohom_ltb : forall x y, nltb (h x) (h y) = nltb x y
}.

Section Hom.
Context {T U : Type} `{NT : Num T} `{NU : Num U} (h : T -> U) {Hh : OrdHom h}.
Notation hh := (map (map h)).

Lemma o_ltb x y : nltb (h x) (h y) = nltb x y.
Proof. apply ohom_ltb. Qed.
Lemma o_leb x y : nleb (h x) (h y) = nleb x y.
Proof. unfold nleb. rewrite o_ltb; auto. Qed.
Lemma o_eqb x y : neqb (h x) (h y) = neqb x y.
Proof. unfold neqb. rewrite !o_leb; auto. Qed.

Lemma o_dom l r one : is_dominate_loop (map h l) (map h r) one = is_dominate_loop l r one.
Proof.
  revert r one. induction l as [|x l IH]; intros [|y r] one; simpl; auto.
  rewrite !o_ltb, !IH. auto.
Qed.
Lemma o_is_dominate l r : is_dominate (map h l) (map h r) = is_dominate l r.
Proof. unfold is_dominate. rewrite !map_length, o_dom. auto. Qed.

Lemma o_nth Ob i : nth i (hh Ob) [] = map h (nth i Ob []).
Proof. change (@nil U) with (map h []). apply map_nth. Qed.
Lemma o_val Ob i k : val (hh Ob) i k = h (val Ob i k).
Proof. unfold val. rewrite o_nth, <- (ohom_zero (h:=h)). apply map_nth. Qed.
Lemma o_pre Ob i c : pre (hh Ob) i c = map h (pre Ob i c).
Proof. unfold pre. rewrite o_nth. apply firstn_map. Qed.

Lemma o_veqb a b : veqb (map h a) (map h b) = veqb a b.
Proof. revert b. induction a as [|x a IH]; intros [|y b]; simpl; auto. rewrite o_eqb, IH; auto. Qed.
Lemma o_lexleb a b : lexleb (map h a) (map h b) = lexleb a b.
Proof.
  revert b. induction a as [|x a IH]; intros [|y b]; simpl; auto. rewrite o_eqb, IH, o_ltb; auto.
Qed.
Lemma o_one_uniq l : one_uniq_value (map h l) = one_uniq_value l.
Proof.
  destruct l as [|x l]; simpl; auto. induction l as [|y l IH]; simpl; auto. rewrite o_eqb, IH; auto.
Qed.
Lemma o_split_by Ob ix m k : split_by (hh Ob) ix (h m) k = split_by Ob ix m k.
Proof.
  unfold split_by. f_equal; [f_equal|]; apply filter_ext; intros i; rewrite o_val, ?o_ltb; auto.
Qed.

Lemma o_sweep_a_loop Ob F init ix : sweep_a_loop (hh Ob) F init ix = sweep_a_loop Ob F init ix.
Proof.
  revert F init. induction ix as [|i ix IH]; intros F init; simpl; auto.
  rewrite (filter_ext (fun j => nleb (val (hh Ob) j 1) (val (hh Ob) i 1))
                      (fun j => nleb (val Ob j 1) (val Ob i 1))); [apply IH|].
  intros j. rewrite !o_val. apply o_leb.
Qed.
Lemma o_sweep_a Ob F ix : sweep_a (hh Ob) F ix = sweep_a Ob F ix.
Proof. destruct ix; simpl; auto. apply o_sweep_a_loop. Qed.

Lemma o_absorb Ob F j comp init : sweep_b_absorb (hh Ob) F j comp init = sweep_b_absorb Ob F j comp init.
Proof.
  revert init. induction comp as [|i comp IH]; intros init; simpl; auto.
  rewrite !o_pre, o_lexleb. destruct (lexleb _ _); auto.
  rewrite (filter_ext
    (fun x => (fr F x =? fr F i) && nltb (val (hh Ob) x 1) (val (hh Ob) i 1))
    (fun x => (fr F x =? fr F i) && nltb (val Ob x 1) (val Ob i 1))); [apply IH|].
  intros x. rewrite !o_val, o_ltb. auto.
Qed.
Lemma o_sweep_b_loop Ob F comp init asg : sweep_b_loop (hh Ob) F comp init asg = sweep_b_loop Ob F comp init asg.
Proof.
  revert F comp init. induction asg as [|j asg IH]; intros F comp init; simpl; auto.
  rewrite o_absorb. destruct (sweep_b_absorb Ob F j comp init) as [comp1 init1].
  rewrite (filter_ext (fun x => nleb (val (hh Ob) x 1) (val (hh Ob) j 1))
                      (fun x => nleb (val Ob x 1) (val Ob j 1))); [apply IH|].
  intros x. rewrite !o_val. apply o_leb.
Qed.
Lemma o_sweep_b Ob F comp asg : sweep_b (hh Ob) F comp asg = sweep_b Ob F comp asg.
Proof. apply o_sweep_b_loop. Qed.

Lemma o_fold_ext {A B} (f g : A -> B -> A) l a : (forall a b, f a b = g a b) -> fold_left f l a = fold_left g l a.
Proof. intros E. revert a. induction l as [|b l IH]; intros a; simpl; auto. rewrite E; auto. Qed.
Lemma o_pairwise_b Ob F comp asg c : pairwise_b (hh Ob) F comp asg c = pairwise_b Ob F comp asg c.
Proof.
  unfold pairwise_b. apply o_fold_ext. intros F1 i. apply o_fold_ext. intros F2 j.
  rewrite !o_pre, o_dom, o_veqb. auto.
Qed.

Lemma o_insert_num x l : insert_num (h x) (map h l) = map h (insert_num x l).
Proof. induction l as [|y l IH]; simpl; auto. rewrite o_leb, IH. destruct (nleb x y); auto. Qed.
Lemma o_sort_num l : sort_num (map h l) = map h (sort_num l).
Proof. induction l as [|y l IH]; simpl; auto. unfold sort_num in *. rewrite IH. apply o_insert_num. Qed.
Lemma o_median_low l : median_low (map h l) = h (median_low l).
Proof. unfold median_low. rewrite map_length, o_sort_num, <- (ohom_zero (h:=h)). apply map_nth. Qed.
Lemma o_dedup l : dedup (map h l) = map h (dedup l).
Proof.
  induction l as [|x l IH]; simpl; auto.
  assert (E : existsb (neqb (h x)) (map h l) = existsb (neqb x) l).
  { clear IH. induction l as [|y l IH]; simpl; auto. rewrite o_eqb, IH; auto. }
  rewrite E, IH. destruct (existsb (neqb x) l); auto.
Qed.
Lemma o_list_min l : list_min (map h l) = h (list_min l).
Proof.
  destruct l as [|x l]; simpl; [symmetry; apply ohom_zero|]. revert x.
  induction l as [|y l IH]; intros x; simpl; auto. rewrite <- IH. f_equal. unfold nmin.
  rewrite o_ltb. destruct (nltb y x); auto.
Qed.
Lemma o_list_max l : list_max (map h l) = h (list_max l).
Proof.
  destruct l as [|x l]; simpl; [symmetry; apply ohom_zero|]. revert x.
  induction l as [|y l IH]; intros x; simpl; auto. rewrite <- IH. f_equal. unfold nmax.
  rewrite o_ltb. destruct (nltb x y); auto.
Qed.
Lemma o_vals Ob l k : map (fun i => val (hh Ob) i k) l = map h (map (fun i => val Ob i k) l).
Proof. rewrite map_map. apply map_ext. intros i. apply o_val. Qed.

Lemma o_helper_b fuel Ob F comp asg c : nd_helper_b fuel (hh Ob) F comp asg c = nd_helper_b fuel Ob F comp asg c.
Proof.
  revert F comp asg c. induction fuel as [|fuel IH]; intros F comp asg c; cbn [nd_helper_b]; auto.
  destruct comp as [|a comp]; auto. destruct asg as [|b asg]; auto.
  set (C := a :: comp). set (A := b :: asg). clearbody C A.
  rewrite o_pairwise_b, o_sweep_b, !o_vals, <- map_app, o_dedup, o_median_low, !o_list_max, !o_list_min, !o_leb, !o_split_by, IH.
  destruct (split_by Ob C _ _) as [[l1 e1] g1]. destruct (split_by Ob A _ _) as [[l2 e2] g2].
  destruct ((length C =? 1) || (length A =? 1))%bool; auto. destruct (c =? 2); auto.
  repeat (destruct (nleb _ _); auto).
  rewrite IH; destruct (nd_helper_b _ _ _ _ _ _) as [F1|]; cbn [bind]; auto;
  rewrite IH; destruct (nd_helper_b _ _ _ _ _ _) as [F2|]; cbn [bind]; auto;
  rewrite IH; destruct (nd_helper_b _ _ _ _ _ _) as [F3|]; cbn [bind]; auto;
  rewrite IH; destruct (nd_helper_b _ _ _ _ _ _) as [F4|]; cbn [bind]; auto.
Qed.

Lemma o_helper_a fuel Ob F ix c : nd_helper_a fuel (hh Ob) F ix c = nd_helper_a fuel Ob F ix c.
Proof.
  revert F ix c. induction fuel as [|fuel IH]; intros F ix c; cbn [nd_helper_a]; auto.
  destruct ix as [|i0 [|i1 [|i2 ix]]]; auto.
  - rewrite !o_pre, o_dom. auto.
  - set (I := i0 :: i1 :: i2 :: ix). clearbody I.
    rewrite o_sweep_a, o_vals, o_one_uniq, o_median_low, o_split_by, IH.
    destruct (c =? 2); auto. destruct (one_uniq_value _); auto.
    destruct (split_by Ob I _ _) as [[l e] g].
    rewrite IH. destruct (nd_helper_a _ _ _ _ _) as [F1|]; cbn [bind]; auto.
    rewrite o_helper_b. destruct (nd_helper_b _ _ _ _ _ _) as [F2|]; cbn [bind]; auto.
    rewrite IH. destruct (nd_helper_a _ _ _ _ _) as [F3|]; cbn [bind]; auto.
    rewrite o_helper_b. destruct (nd_helper_b _ _ _ _ _ _) as [F4|]; cbn [bind]; auto.
Qed.

Definition hkv (kv : list T * list nat) : list U * list nat := (map h (fst kv), snd kv).
Lemma o_dict_add d key i : dict_add (map hkv d) (map h key) i = map hkv (dict_add d key i).
Proof.
  induction d as [|[k is] d IH]; simpl; auto. rewrite o_veqb, IH. destruct (veqb key k); auto.
Qed.
Lemma o_build_dict d i ps : build_dict (map hkv d) i (hh ps) = map hkv (build_dict d i ps).
Proof. revert d i. induction ps as [|p ps IH]; intros d i; simpl; auto. rewrite o_dict_add. apply IH. Qed.
Lemma o_objs_dict ps : objs_dict (hh ps) = map hkv (objs_dict ps).
Proof. apply (o_build_dict []). Qed.
Lemma o_dict_get d key : dict_get (map hkv d) (map h key) = dict_get d key.
Proof. induction d as [|[k is] d IH]; simpl; auto. rewrite o_veqb, IH. auto. Qed.
Lemma o_insert_lex x l : insert_lex (map h x) (hh l) = hh (insert_lex x l).
Proof. induction l as [|y l IH]; simpl; auto. rewrite o_lexleb, IH. destruct (lexleb x y); auto. Qed.
Lemma o_sort_lex l : sort_lex (hh l) = hh (sort_lex l).
Proof. induction l as [|x l IH]; simpl; auto. unfold sort_lex in *. rewrite IH. apply o_insert_lex. Qed.

Definition hOF (p : list (list T) * list nat) : list (list U) * list nat := (hh (fst p), snd p).
Lemma o_core ps : nds_core (hh ps) = rmap hOF (nds_core ps).
Proof.
  unfold nds_core. rewrite o_objs_dict. destruct (objs_dict ps) as [|[k is] d] eqn:E; auto.
  cbn [map hkv fst snd]. rewrite map_length. destruct (length k <=? 1); auto.
  assert (Ef : forallb (fun kv : list U * list nat => length k =? length (fst kv)) ((map h k, is) :: map hkv d)
             = forallb (fun kv : list T * list nat => length k =? length (fst kv)) ((k, is) :: d)).
  { simpl. rewrite map_length. f_equal. clear E. induction d as [|[k' is'] d IH]; simpl; auto.
    rewrite map_length, IH. auto. }
  change (hkv (k, is)) with (map h k, is). rewrite Ef. clear Ef.
  set (b := forallb _ ((k, is) :: d)). clearbody b. destruct b; auto.
  assert (Em : map h k :: map fst (map hkv d) = hh (k :: map fst d)).
  { simpl. f_equal. rewrite !map_map. apply map_ext. intros [k' is']; auto. }
  cbn [map fst]. rewrite Em, o_sort_lex, map_length, o_helper_a.
  destruct (nd_helper_a _ _ _ _ _); auto.
Qed.

Lemma o_front_numbers ps : front_numbers (hh ps) = front_numbers ps.
Proof.
  unfold front_numbers. rewrite o_core. destruct (nds_core ps) as [[Ob F]|]; cbn [bind rmap hOF fst snd]; auto.
  rewrite !map_length, o_objs_dict. f_equal. apply o_fold_ext. intros acc u.
  rewrite o_nth, o_dict_get. auto.
Qed.
Lemma o_sort_idx ps : non_domin_sort_idx (hh ps) = non_domin_sort_idx ps.
Proof. unfold non_domin_sort_idx. rewrite o_front_numbers. auto. Qed.
Lemma o_sort_dec ps : non_domin_sort_dec (hh ps) = non_domin_sort_dec ps.
Proof.
  unfold non_domin_sort_dec. rewrite o_core. destruct (nds_core ps) as [[Ob F]|]; cbn [bind rmap hOF fst snd]; auto.
  rewrite !map_length, o_objs_dict. f_equal. apply o_fold_ext. intros acc u.
  rewrite o_nth, o_dict_get. auto.
Qed.

(** [get_non_dominated] in its weak form *)
Lemma o_some_worse q p : some_worse (map h q) (map h p) = some_worse q p.
Proof.
  unfold some_worse. revert p. induction q as [|x q IH]; intros [|y p]; simpl; auto. rewrite o_ltb, IH; auto.
Qed.
Lemma o_gnd_idx ic ic' M : get_non_dominated_idx ic' true (hh M) = get_non_dominated_idx ic true M.
Proof.
  unfold get_non_dominated_idx. rewrite map_length.
  assert (E : forall idx, gnd_cond ic' true (hh M) idx = gnd_cond ic true M idx).
  { intros idx. unfold gnd_cond. rewrite o_nth, firstn_map, skipn_map.
    assert (E : forall l, forallb (fun q => some_worse q (map h (nth idx M []))) (hh l)
               = forallb (fun q => some_worse q (nth idx M [])) l).
    { induction l as [|q l IH]; simpl; auto. rewrite o_some_worse, IH; auto. }
    rewrite !E. auto. }
  rewrite (filter_ext _ _ E). auto.
Qed.
End Hom.
