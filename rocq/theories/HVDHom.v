(** Non-dominated sorting and the derivative routines commute with order preserving
    ring homomorphisms: results computed on integers hold for the reals. *)
From Coq Require Import List Arith Lia Bool ZArith Reals.
From Verif Require Import Num Exn ListAux NDSModel HVModel HVHom HVDModel.
Import ListNotations.
Open Scope nat_scope.

Section Hom.
Context {T U : Type} `{NT : Num T} `{NU : Num U} (h : T -> U) {Hh : NumHom h}.

Notation mh := (map h).
Notation mmh := (map (map h)).

Lemma hom_nth l k : nth k (mh l) nzero = h (nth k l nzero).
Proof. rewrite <- (hom_zero (h:=h)). apply map_nth. Qed.
Lemma hom_nthrow l k : nth k (mmh l) [] = mh (nth k l []).
Proof. change (@nil U) with (mh []). apply map_nth. Qed.
Lemma hom_val Ob i k : val (mmh Ob) i k = h (val Ob i k).
Proof. unfold val. rewrite hom_nthrow. apply hom_nth. Qed.
Lemma hom_pre Ob i c : pre (mmh Ob) i c = mh (pre Ob i c).
Proof. unfold pre. rewrite hom_nthrow. apply firstn_map. Qed.
Lemma hom_min x y : nmin (h x) (h y) = h (nmin x y).
Proof. unfold nmin. rewrite (hom_ltb (h:=h)). destruct (nltb y x); auto. Qed.
Lemma hom_max x y : nmax (h x) (h y) = h (nmax x y).
Proof. unfold nmax. rewrite (hom_ltb (h:=h)). destruct (nltb x y); auto. Qed.

Lemma hom_dom l r b : is_dominate_loop (mh l) (mh r) b = is_dominate_loop l r b.
Proof.
  revert r b. induction l as [|x l IH]; intros [|y r] b; simpl; auto.
  rewrite !(hom_ltb (h:=h)), !IH. auto.
Qed.
Lemma hom_veqb l r : veqb (mh l) (mh r) = veqb l r.
Proof.
  revert r. induction l as [|x l IH]; intros [|y r]; simpl; auto. rewrite (hom_eqb h), IH. auto.
Qed.
Lemma hom_lexleb l r : lexleb (mh l) (mh r) = lexleb l r.
Proof.
  revert r. induction l as [|x l IH]; intros [|y r]; simpl; auto.
  rewrite (hom_eqb h), IH, (hom_ltb (h:=h)). auto.
Qed.
Lemma hom_one_uniq l : one_uniq_value (mh l) = one_uniq_value l.
Proof.
  destruct l as [|x l]; simpl; auto. induction l as [|y l IH]; simpl; auto.
  rewrite (hom_eqb h), IH. auto.
Qed.
Lemma filter_same {A} (f g : A -> bool) l : (forall x, f x = g x) -> filter f l = filter g l.
Proof. intros E. apply filter_ext. auto. Qed.
Lemma hom_split Ob ix m k : split_by (mmh Ob) ix (h m) k = split_by Ob ix m k.
Proof.
  unfold split_by. rewrite (filter_same _ (fun i => nltb (val Ob i k) m)).
  rewrite (filter_same (fun i => negb (nltb (val (mmh Ob) i k) (h m)) && negb (nltb (h m) (val (mmh Ob) i k)))
             (fun i => negb (nltb (val Ob i k) m) && negb (nltb m (val Ob i k)))).
  rewrite (filter_same (fun i => negb (nltb (val (mmh Ob) i k) (h m)) && nltb (h m) (val (mmh Ob) i k))
             (fun i => negb (nltb (val Ob i k) m) && nltb m (val Ob i k))).
  auto. all: intros i; rewrite hom_val, ?(hom_ltb (h:=h)); auto.
Qed.
Lemma hom_sweep_a_loop Ob F init ix : sweep_a_loop (mmh Ob) F init ix = sweep_a_loop Ob F init ix.
Proof.
  revert F init. induction ix as [|i ix IH]; intros F init; cbn [sweep_a_loop]; auto.
  rewrite (filter_same (fun j => nleb (val (mmh Ob) j 1) (val (mmh Ob) i 1)) (fun j => nleb (val Ob j 1) (val Ob i 1))).
  apply IH. intros j. rewrite !hom_val. apply hom_leb; auto.
Qed.
Lemma hom_sweep_a Ob F ix : sweep_a (mmh Ob) F ix = sweep_a Ob F ix.
Proof. destruct ix; simpl; auto. apply hom_sweep_a_loop. Qed.
Lemma hom_absorb Ob F j comp init : sweep_b_absorb (mmh Ob) F j comp init = sweep_b_absorb Ob F j comp init.
Proof.
  revert init. induction comp as [|i comp IH]; intros init; cbn [sweep_b_absorb]; auto.
  rewrite !hom_pre, hom_lexleb. destruct (lexleb _ _); auto.
  rewrite (filter_same _ (fun x => Nat.eqb (fr F x) (fr F i) && nltb (val Ob x 1) (val Ob i 1))).
  apply IH. intros x. rewrite !hom_val, (hom_ltb (h:=h)). auto.
Qed.
Lemma hom_sweep_b_loop Ob F comp init asg : sweep_b_loop (mmh Ob) F comp init asg = sweep_b_loop Ob F comp init asg.
Proof.
  revert F comp init. induction asg as [|j asg IH]; intros F comp init; cbn [sweep_b_loop]; auto.
  rewrite hom_absorb. destruct (sweep_b_absorb Ob F j comp init) as [c1 i1].
  rewrite (filter_same (fun x => nleb (val (mmh Ob) x 1) (val (mmh Ob) j 1)) (fun x => nleb (val Ob x 1) (val Ob j 1))).
  apply IH. intros x. rewrite !hom_val. apply hom_leb; auto.
Qed.
Lemma fold_left_same {A B} (f g : A -> B -> A) l a : (forall a b, f a b = g a b) -> fold_left f l a = fold_left g l a.
Proof. intros E. revert a. induction l as [|x l IH]; intros a; simpl; auto. rewrite E. auto. Qed.
Lemma hom_pairwise Ob F comp asg c : pairwise_b (mmh Ob) F comp asg c = pairwise_b Ob F comp asg c.
Proof.
  unfold pairwise_b. apply fold_left_same. intros F1 i. apply fold_left_same. intros F2 j.
  rewrite !hom_pre, hom_dom, hom_veqb. auto.
Qed.
Lemma hom_insert_num x l : insert_num (h x) (mh l) = mh (insert_num x l).
Proof. induction l as [|y l IH]; simpl; auto. rewrite (hom_leb h). destruct (nleb x y); simpl; rewrite ?IH; auto. Qed.
Lemma hom_sort_num l : sort_num (mh l) = mh (sort_num l).
Proof. unfold sort_num. induction l as [|x l IH]; simpl; auto. rewrite IH. apply hom_insert_num. Qed.
Lemma hom_median l : median_low (mh l) = h (median_low l).
Proof. unfold median_low. rewrite hom_sort_num, map_length. apply hom_nth. Qed.
Lemma hom_dedup l : dedup (mh l) = mh (dedup l).
Proof.
  induction l as [|x l IH]; simpl; auto.
  assert (E : existsb (neqb (h x)) (mh l) = existsb (neqb x) l).
  { clear IH. induction l as [|y l IH]; simpl; auto. rewrite (hom_eqb h), IH. auto. }
  rewrite E, IH. destruct (existsb (neqb x) l); reflexivity.
Qed.
Lemma hom_list_min l : list_min (mh l) = h (list_min l).
Proof.
  destruct l as [|x l]; simpl; [rewrite (hom_zero (h:=h)); auto|].
  revert x. induction l as [|y l IH]; intros x; simpl; auto. rewrite hom_min. apply IH.
Qed.
Lemma hom_list_max l : list_max (mh l) = h (list_max l).
Proof.
  destruct l as [|x l]; simpl; [rewrite (hom_zero (h:=h)); auto|].
  revert x. induction l as [|y l IH]; intros x; simpl; auto. rewrite hom_max. apply IH.
Qed.
Lemma hom_vals Ob k ix : map (fun i => val (mmh Ob) i k) ix = mh (map (fun i => val Ob i k) ix).
Proof. rewrite map_map. apply map_ext. intros i. apply hom_val. Qed.
Lemma bind_same {A B} (r : res A) (f g : A -> res B) : (forall a, f a = g a) -> bind r f = bind r g.
Proof. destruct r; simpl; auto. Qed.

Lemma hom_helper_b fuel Ob F comp asg c : nd_helper_b fuel (mmh Ob) F comp asg c = nd_helper_b fuel Ob F comp asg c.
Proof.
  revert F comp asg c. induction fuel as [|fuel IH]; intros F comp asg c; cbn [nd_helper_b]; auto.
  destruct comp as [|c0 comp]; auto. destruct asg as [|a0 asg]; auto.
  destruct (_ || _); [rewrite hom_pairwise; auto|].
  destruct (Nat.eqb c 2); [unfold sweep_b; rewrite hom_sweep_b_loop; auto|].
  rewrite !hom_vals, !hom_list_max, !hom_list_min, <- map_app, hom_dedup, hom_median, !(hom_leb h).
  destruct (nleb _ _); auto. destruct (nleb _ _); auto.
  rewrite !hom_split. destruct (split_by Ob (c0 :: comp) _ _) as [[l1 e1] g1].
  destruct (split_by Ob (a0 :: asg) _ _) as [[l2 e2] g2].
  rewrite IH. apply bind_same; intros F1. rewrite IH. apply bind_same; intros F2.
  rewrite IH. apply bind_same; intros F3. rewrite IH. apply bind_same; intros F4. apply IH.
Qed.
Lemma hom_helper_a fuel Ob F ix c : nd_helper_a fuel (mmh Ob) F ix c = nd_helper_a fuel Ob F ix c.
Proof.
  revert F ix c. induction fuel as [|fuel IH]; intros F ix c; cbn [nd_helper_a]; auto.
  destruct ix as [|i0 [|i1 [|i2 ix]]]; auto.
  - rewrite !hom_pre, hom_dom. auto.
  - destruct (Nat.eqb c 2); [rewrite hom_sweep_a; auto|].
    rewrite !hom_vals, hom_one_uniq, hom_median.
    destruct (one_uniq_value _); auto.
    rewrite hom_split. destruct (split_by Ob _ _ _) as [[l e] g].
    rewrite IH. apply bind_same; intros F1. rewrite hom_helper_b. apply bind_same; intros F2.
    rewrite IH. apply bind_same; intros F3. rewrite hom_helper_b. apply bind_same; intros F4. apply IH.
Qed.

Definition hd (d : list (list T * list nat)) : list (list U * list nat) := map (fun e => (mh (fst e), snd e)) d.
Lemma hom_dict_add d key i : dict_add (hd d) (mh key) i = hd (dict_add d key i).
Proof.
  induction d as [|[k l] d IH]; simpl; auto. rewrite hom_veqb. destruct (veqb key k); simpl; auto.
  unfold hd in *. rewrite IH. auto.
Qed.
Lemma hom_build_dict d i ps : build_dict (hd d) i (mmh ps) = hd (build_dict d i ps).
Proof.
  revert d i. induction ps as [|p ps IH]; intros d i; simpl; auto. rewrite hom_dict_add. apply IH.
Qed.
Lemma hom_objs_dict ps : objs_dict (mmh ps) = hd (objs_dict ps).
Proof. unfold objs_dict. change (@nil (list U * list nat)) with (hd []). apply hom_build_dict. Qed.
Lemma hom_dict_get d key : dict_get (hd d) (mh key) = dict_get d key.
Proof.
  induction d as [|[k l] d IH]; simpl; auto. rewrite hom_veqb. destruct (veqb key k); auto.
Qed.
Lemma hom_insert_lex x l : insert_lex (mh x) (mmh l) = mmh (insert_lex x l).
Proof. induction l as [|y l IH]; simpl; auto. rewrite hom_lexleb. destruct (lexleb x y); simpl; rewrite ?IH; auto. Qed.
Lemma hom_sort_lex l : sort_lex (mmh l) = mmh (sort_lex l).
Proof. unfold sort_lex. induction l as [|x l IH]; simpl; auto. rewrite IH. apply hom_insert_lex. Qed.
Lemma hd_fst d : map fst (hd d) = mmh (map fst d).
Proof. unfold hd. rewrite !map_map. auto. Qed.
Lemma hom_nds_core ps : nds_core (mmh ps) = rmap (fun r => (mmh (fst r), snd r)) (nds_core ps).
Proof.
  unfold nds_core. rewrite hom_objs_dict. destruct (objs_dict ps) as [|[f l] d]; auto.
  assert (E : forallb (fun kv => Nat.eqb (length f) (length (fst kv))) (hd ((f,l)::d))
            = forallb (fun kv => Nat.eqb (length f) (length (fst kv))) ((f,l)::d)).
  { clear. induction ((f,l)::d) as [|[a b] e IH]; simpl; auto. rewrite map_length. rewrite <- IH. auto. }
  cbn [hd map fst snd] in *. rewrite map_length. destruct (Nat.leb _ _); auto.
  rewrite E. clear E. destruct (forallb _ _); auto.
  rewrite map_map. cbn [fst].
  replace (sort_lex (mh f :: map (fun x : list T * list nat => mh (fst x)) d)) with (mmh (sort_lex (f :: map fst d)))
    by (rewrite <- hom_sort_lex; simpl; rewrite map_map; auto).
  rewrite map_length, hom_helper_a. apply rmap_bind_eq. auto.
Qed.
Lemma hom_front_numbers ps : front_numbers (mmh ps) = front_numbers ps.
Proof.
  unfold front_numbers. rewrite hom_nds_core. destruct (nds_core ps) as [[Ob F]|e]; simpl; auto.
  rewrite !map_length. f_equal. apply fold_left_same. intros a u. f_equal.
  rewrite hom_objs_dict, hom_nthrow, hom_dict_get. auto.
Qed.
Lemma hom_nds_idx ps : non_domin_sort_idx (mmh ps) = non_domin_sort_idx ps.
Proof. unfold non_domin_sort_idx. rewrite hom_front_numbers. auto. Qed.

Lemma hom_argmin_aux l pos best b : argmin_aux (mh l) pos best (h b) = argmin_aux l pos best b.
Proof.
  revert pos best b. induction l as [|x l IH]; intros pos best b; simpl; auto.
  rewrite (hom_ltb (h:=h)), !IH. auto.
Qed.
Lemma hom_argmin l : argmin (mh l) = argmin l.
Proof. destruct l; simpl; auto. rewrite hom_argmin_aux. auto. Qed.
Lemma hom_nondominated m P : nondominated_indices m (mmh P) = nondominated_indices m P.
Proof.
  unfold nondominated_indices, first_front. rewrite hom_nds_idx. destruct (Nat.eqb m 1); auto.
  assert (E : concat (mmh P) = mh (concat P)) by (rewrite concat_map; auto).
  rewrite E, hom_argmin. auto.
Qed.
Lemma map_delete_at {A B} (f : A -> B) k l : delete_at k (map f l) = map f (delete_at k l).
Proof. revert k. induction l as [|x l IH]; intros [|k]; simpl; auto. rewrite IH; auto. Qed.
Lemma map_insert_at {A B} (f : A -> B) k x l : insert_at k (f x) (map f l) = rmap (map f) (insert_at k x l).
Proof.
  revert l. induction k as [|k IH]; intros [|a l]; simpl; auto. rewrite IH. apply rmap_bind. auto.
Qed.
Lemma hom_gather l ix : gather nzero (mh l) ix = mh (gather nzero l ix).
Proof. unfold gather. rewrite map_map. apply map_ext. intros. apply hom_nth. Qed.
Lemma hom_gatherrow l ix : gather [] (mmh l) ix = mmh (gather [] l ix).
Proof. unfold gather. rewrite map_map. apply map_ext. intros. apply hom_nthrow. Qed.
Definition hpr (r : list T * list (list T) * list T * list nat) : list U * list (list U) * list U * list nat :=
  let '(y, f, r, ix) := r in (mh y, mmh f, mh r, ix).
Lemma hom_project axis i front ref :
  project axis i (mmh front) (mh ref) = rmap hpr (project axis i front ref).
Proof.
  unfold project. rewrite nth_error_map. destruct (nth_error front i) as [y|]; simpl; auto.
  rewrite !map_delete_at, !map_length.
  rewrite (filter_same _ (fun j => nltb (nth axis (nth j front []) nzero) (nth axis y nzero)))
    by (intros j; rewrite hom_nthrow, !hom_nth; apply (hom_ltb (h:=h))).
  rewrite hom_gatherrow.
  match goal with |- context [gather [] front ?ix] => set (idx := ix) end.
  assert (E : map (delete_at axis) (mmh (gather [] front idx)) = mmh (map (delete_at axis) (gather [] front idx)))
    by (rewrite !map_map; apply map_ext; intros; apply map_delete_at).
  rewrite E, hom_nondominated, !map_length. destruct (Nat.eqb _ 0); auto.
  apply rmap_bind_eq. intros ind. simpl. rewrite hom_gatherrow. auto.
Qed.
Lemma hom_insert_desc l i acc : insert_desc (mh l) i acc = insert_desc l i acc.
Proof. induction acc as [|j acc IH]; simpl; auto. rewrite !hom_nth, (hom_ltb (h:=h)), IH. auto. Qed.
Lemma hom_argsort_desc l : argsort_desc (mh l) = argsort_desc l.
Proof.
  unfold argsort_desc. rewrite map_length. induction (seq 0 (length l)) as [|i s IH]; simpl; auto.
  rewrite IH. apply hom_insert_desc.
Qed.
Lemma hom_map2 (f : T -> T -> T) (g : U -> U -> U) a b :
  (forall x y, g (h x) (h y) = h (f x y)) -> map2 g (mh a) (mh b) = mh (map2 f a b).
Proof. intros E. revert b. induction a as [|x a IH]; intros [|y b]; simpl; auto. rewrite E, IH. auto. Qed.
Lemma hom_scatter ix v i : scatter nzero ix (mh v) i = h (scatter nzero ix v i).
Proof.
  revert v. induction ix as [|j ix IH]; intros [|x v]; simpl; rewrite ?(hom_zero (h:=h)); auto.
  rewrite IH. destruct (Nat.eqb j i); auto.
Qed.
Lemma map_scatter {A B} (f : A -> B) d ix v i : scatter (f d) ix (map f v) i = f (scatter d ix v i).
Proof.
  revert v. induction ix as [|j ix IH]; intros [|x v]; simpl; auto.
  rewrite IH. destruct (Nat.eqb j i); auto.
Qed.
Lemma hom_col k front : map (fun p => nth k p nzero) (mmh front) = mh (map (fun p => nth k p nzero) front).
Proof. rewrite !map_map. apply map_ext. intros. apply hom_nth. Qed.
Lemma hom_dY2 front ref : dY2 (mmh front) (mh ref) = mmh (dY2 front ref).
Proof.
  unfold dY2, dY2_order. rewrite !hom_col, !hom_argsort_desc, !hom_gather, !hom_argsort_desc, !map_length.
  rewrite !hom_nth, map_map. apply map_ext. intros i. cbn [map].
  set (idx := gather 0 _ _).
  set (y2 := gather nzero (map (fun p => nth 1 p nzero) front) idx).
  set (y1 := gather nzero (map (fun p => nth 0 p nzero) front) idx).
  assert (E1 : removelast (mh y2) = mh (removelast y2)).
  { clearbody y2. induction y2 as [|a [|b l] IH]; auto. simpl in *. rewrite IH. auto. }
  assert (E2 : tl (mh y1) = mh (tl y1)) by (destruct y1; auto).
  rewrite E1, E2. change (h ?x :: mh ?l) with (mh (x :: l)). change [h ?x] with (mh [x]).
  rewrite <- map_app.
  rewrite !(hom_map2 nsub nsub) by (intros; symmetry; apply (hom_sub (h:=h))).
  rewrite !hom_scatter. auto.
Qed.

Variable argsort : list T -> list nat.
Variable argsort' : list U -> list nat.
Hypothesis Hargsort : forall l, argsort' (map h l) = argsort l.
Variable minf : T.

Lemma hom_improvement x front ref :
  hypervolume_improvement (h minf) argsort' (mh x) (mmh front) (mh ref)
  = rmap h (hypervolume_improvement minf argsort x front ref).
Proof.
  unfold hypervolume_improvement.
  change (mh x :: mmh front) with (mmh (x :: front)).
  rewrite !(hom_hypervolume h minf argsort argsort') by auto.
  apply rmap_bind. intros a. apply rmap_bind. intros b. simpl. rewrite (hom_sub (h:=h)). auto.
Qed.
Lemma rmap_map_res {A B C} (f : B -> C) (g : A -> res B) (g' : A -> res C) l :
  (forall x, g' x = rmap f (g x)) -> map_res g' l = rmap (map f) (map_res g l).
Proof.
  intros E. induction l as [|x l IH]; simpl; auto. rewrite E. apply rmap_bind. intros b.
  rewrite IH. apply rmap_bind. auto.
Qed.
Lemma hom_hypervolume_dY front ref :
  hypervolume_dY (h minf) argsort' (mmh front) (mh ref) = rmap mmh (hypervolume_dY minf argsort front ref).
Proof.
  unfold hypervolume_dY. rewrite !map_length. rewrite hom_dY2.
  destruct (length ref) as [|[|[|m]]].
  2: { simpl. rewrite (hom_opp (h:=h)), (hom_one (h:=h)). auto. }
  2: { simpl. auto. }
  all: apply (rmap_map_res mh); intros i; apply (rmap_map_res h); intros k;
    rewrite hom_project; apply rmap_bind; intros [[[y f] r] ix]; cbn [hpr];
    rewrite hom_improvement; apply rmap_bind; intros v; simpl;
    rewrite (hom_mul (h:=h)), (hom_opp (h:=h)), (hom_one (h:=h)); auto.
Qed.
Lemma map_rep {A B} (f : A -> B) x n : map f (repeat x n) = repeat (f x) n.
Proof. induction n; simpl; congruence. Qed.
Lemma hom_row_zero m : repeat nzero m = mh (repeat nzero m).
Proof. rewrite map_rep, (hom_zero (h:=h)). auto. Qed.
Lemma hom_shape_ok m Y : forallb (fun p => Nat.eqb (length p) m) (mmh Y) = forallb (fun p => Nat.eqb (length p) m) Y.
Proof. induction Y as [|y Y IH]; simpl; auto. rewrite map_length, IH. auto. Qed.
Theorem hom_compute_HVdY m Y ref :
  compute_HVdY (h minf) argsort' m (mmh Y) (mh ref) = rmap mmh (compute_HVdY minf argsort m Y ref).
Proof.
  unfold compute_HVdY. rewrite hom_shape_ok, hom_nondominated. destruct (negb _); auto.
  apply rmap_bind_eq. intros nd. rewrite hom_gatherrow, hom_hypervolume_dY. apply rmap_bind. intros g.
  simpl. f_equal. rewrite map_length, map_map. apply map_ext. intros i. rewrite hom_row_zero. apply map_scatter.
Qed.
Lemma hom_clip lo hi v : clip (mh lo) (mh hi) (mh v) = mh (clip lo hi v).
Proof.
  unfold clip. rewrite (hom_map2 nmax nmax) by apply hom_max. apply hom_map2. apply hom_min.
Qed.
Lemma hom_assign_block m v : assign_block m (mh v) = rmap mh (assign_block m v).
Proof.
  unfold assign_block. rewrite map_length. destruct (Nat.eqb _ _); auto. destruct v as [|x [|y v]]; simpl; auto.
  rewrite map_rep. auto.
Qed.
Lemma combine_map {A B C D} (f : A -> B) (g : C -> D) a b :
  combine (map f a) (map g b) = map (fun e => (f (fst e), g (snd e))) (combine a b).
Proof. revert b. induction a as [|x a IH]; intros [|y b]; simpl; auto. rewrite IH. auto. Qed.
Lemma hom_hess_column m Y ref i k :
  hess_column (h minf) argsort' m (mmh Y) (mh ref) i k = rmap mmh (hess_column minf argsort m Y ref i k).
Proof.
  unfold hess_column. rewrite hom_project. apply rmap_bind. intros [[[y f] r] ix]. cbn [hpr].
  change (mh y :: mmh f) with (mmh (y :: f)). rewrite map_length, hom_nondominated. apply rmap_bind_eq. intros nd.
  rewrite hom_gatherrow, hom_hypervolume_dY. apply rmap_bind. intros g.
  assert (E : map (nmul (nopp none_)) (concat (map snd (filter (fun e => Nat.eqb (fst e) 0) (combine nd (mmh g)))))
            = mh (map (nmul (nopp none_)) (concat (map snd (filter (fun e => Nat.eqb (fst e) 0) (combine nd g)))))).
  { clear - Hh. revert g. induction nd as [|a nd IH]; intros [|b g]; simpl; auto.
    destruct (Nat.eqb a 0); simpl; auto. rewrite !map_app, IH. f_equal.
    rewrite !map_map. apply map_ext. intros x. rewrite (hom_mul (h:=h)), (hom_opp (h:=h)), (hom_one (h:=h)). auto. }
  rewrite E. rewrite <- (hom_zero (h:=h)) at 1. rewrite map_insert_at. apply rmap_bind. intros own.
  rewrite hom_assign_block. apply rmap_bind. intros own2.
  assert (E2 : map (clip (mh y) (mh r)) (mmh f) = mmh (map (clip y r) f))
    by (rewrite !map_map; apply map_ext; intros; apply hom_clip).
  rewrite E2, hom_hypervolume_dY. apply rmap_bind. intros g2.
  match goal with |- bind (map_res _ ?x) _ = rmap _ (bind (map_res _ ?z) _) => assert (E3 : x = mmh z) end.
  { clear - Hh. revert g2. induction f as [|p f IH]; intros [|w g2]; simpl; auto. rewrite IH. f_equal.
    rewrite combine_map. generalize (combine y w). clear - Hh. induction p as [|x p IH]; intros [|[a b] c]; simpl; auto.
    rewrite IH, (hom_ltb (h:=h)), <- (hom_zero (h:=h)). destruct (nltb x a); auto. }
  rewrite E3.
  match goal with |- bind (map_res _ (mmh ?z)) _ = _ =>
    assert (E4 : map_res (insert_at k nzero) (mmh z) = rmap mmh (map_res (insert_at k nzero) z)) end.
  { generalize (map2 (fun p row => map2 (fun px ye => if nltb px (fst ye) then nzero else snd ye) p (combine y row)) f g2).
    clear - Hh. intros l. induction l as [|x l IH]; simpl; auto. rewrite <- (hom_zero (h:=h)) at 1. rewrite map_insert_at.
    apply rmap_bind. intros a. rewrite IH. apply rmap_bind. auto. }
  rewrite E4. apply rmap_bind. intros g4. simpl. f_equal. rewrite map_length, map_map. apply map_ext. intros j.
  rewrite <- (map_scatter mh). destruct (Nat.eqb j i); auto. rewrite hom_row_zero. auto.
Qed.
Theorem hom_compute_HVdY2 m Y ref :
  compute_HVdY2 (h minf) argsort' m (mmh Y) (mh ref) = rmap (map (map mmh)) (compute_HVdY2 minf argsort m Y ref).
Proof.
  unfold compute_HVdY2. rewrite hom_shape_ok, hom_nondominated, map_length. destruct (negb _); auto.
  apply rmap_bind_eq. intros nd. apply rmap_map_res. intros i. destruct (existsb _ _).
  - apply rmap_map_res. intros k. apply hom_hess_column.
  - simpl. rewrite !map_rep, (hom_zero (h:=h)). auto.
Qed.
End Hom.

(** integer runs *)
Notation ofZ := (map (map IZR)).
Lemma hypervolume_dY_run minf F ref g :
  hypervolume_dY minf stable_argsort F ref = Ok g ->
  hypervolume_dY (IZR minf) stable_argsort (ofZ F) (map IZR ref) = Ok (ofZ g).
Proof.
  intros E. rewrite (hom_hypervolume_dY IZR stable_argsort stable_argsort), E; auto.
  apply hom_stable_argsort; auto with typeclass_instances.
Qed.
Lemma compute_HVdY_run minf m F ref g :
  compute_HVdY minf stable_argsort m F ref = Ok g ->
  compute_HVdY (IZR minf) stable_argsort m (ofZ F) (map IZR ref) = Ok (ofZ g).
Proof.
  intros E. rewrite (hom_compute_HVdY IZR stable_argsort stable_argsort), E; auto.
  apply hom_stable_argsort; auto with typeclass_instances.
Qed.
Lemma compute_HVdY2_run minf m F ref g :
  compute_HVdY2 minf stable_argsort m F ref = Ok g ->
  compute_HVdY2 (IZR minf) stable_argsort m (ofZ F) (map IZR ref) = Ok (map (map ofZ) g).
Proof.
  intros E. rewrite (hom_compute_HVdY2 IZR stable_argsort stable_argsort), E; auto.
  apply hom_stable_argsort; auto with typeclass_instances.
Qed.
