(** The model of the hypervolume algorithm commutes with order preserving ring
    homomorphisms (used to run it on integers and transfer the result to reals), and a
    concrete sorting routine that satisfies the assumption made on [np.argsort]. *)
From Coq Require Import List Arith Lia Bool ZArith Reals Lra FunctionalExtensionality Permutation Sorting.Sorted.
From Verif Require Import Num Exn ListAux HVModel HVSpec HVTop.
Import ListNotations.
Open Scope nat_scope.

Class NumHom {T U} `{NT : Num T} `{NU : Num U} (h : T -> U) := mkNumHom {
  hom_zero : h nzero = nzero;
  hom_one : h none_ = none_;
  hom_add : forall x y, h (nadd x y) = nadd (h x) (h y);
  hom_sub : forall x y, h (nsub x y) = nsub (h x) (h y);
  hom_mul : forall x y, h (nmul x y) = nmul (h x) (h y);
  hom_opp : forall x, h (nopp x) = nopp (h x);
  hom_ltb : forall x y, nltb (h x) (h y) = nltb x y
}.

#[global] Instance IZR_hom : NumHom IZR.
Proof.
  constructor; try reflexivity.
  - exact plus_IZR.
  - exact minus_IZR.
  - exact mult_IZR.
  - exact opp_IZR.
  - intros x y. destruct (nltb_spec (IZR x) (IZR y)) as [Hl|Hl]; symmetry.
    + apply lt_IZR in Hl. apply Z.ltb_lt; auto.
    + apply Z.ltb_ge. apply Rnot_lt_le in Hl. apply le_IZR; auto.
Qed.

Definition rmap {A B} (f : A -> B) (r : res A) : res B :=
  match r with Ok a => Ok (f a) | Exn e => Exn e end.

Lemma rmap_bind {A B A' B'} (f : A -> A') (g : B -> B') (r : res A) (k : A -> res B) (k' : A' -> res B') :
  (forall a, k' (f a) = rmap g (k a)) -> bind (rmap f r) k' = rmap g (bind r k).
Proof. destruct r; simpl; auto. Qed.

(** the same, for a computation that does not mention numbers *)
Lemma rmap_bind_eq {A B B'} (g : B -> B') (r : res A) (k : A -> res B) (k' : A -> res B') :
  (forall a, k' a = rmap g (k a)) -> bind r k' = rmap g (bind r k).
Proof. destruct r; simpl; auto. Qed.

Section Hom.
Context {T U : Type} `{NT : Num T} `{NU : Num U} (h : T -> U) {Hh : NumHom h}.

Definition hm (m : @mem T) : @mem U :=
  mkMem (nx m) (pv m) (ig m) (fun i x => h (ar m i x)) (fun i x => h (vo m i x)) (fun i => h (bd m i)).

Lemma hm_set_nx m i x a : hm (set_nx m i x a) = set_nx (hm m) i x a.
Proof. reflexivity. Qed.
Lemma hm_set_pv m i x a : hm (set_pv m i x a) = set_pv (hm m) i x a.
Proof. reflexivity. Qed.
Lemma hm_set_ig m x a : hm (set_ig m x a) = set_ig (hm m) x a.
Proof. reflexivity. Qed.
Lemma hm_set_ar m i x a : hm (set_ar m i x a) = set_ar (hm m) i x (h a).
Proof.
  unfold hm, set_ar; simpl. f_equal. extensionality j. extensionality y. unfold upd2. destruct (_ && _); auto.
Qed.
Lemma hm_set_vo m i x a : hm (set_vo m i x a) = set_vo (hm m) i x (h a).
Proof.
  unfold hm, set_vo; simpl. f_equal. extensionality j. extensionality y. unfold upd2. destruct (_ && _); auto.
Qed.
Lemma hm_set_bd m i a : hm (set_bd m i a) = set_bd (hm m) i (h a).
Proof.
  unfold hm, set_bd; simpl. f_equal. extensionality j. unfold upd1. destruct (_ =? _)%nat; auto.
Qed.

Lemma hom_leb x y : nleb (h x) (h y) = nleb x y.
Proof. unfold nleb. rewrite (hom_ltb (h:=h)); auto. Qed.
Lemma hom_eqb x y : neqb (h x) (h y) = neqb x y.
Proof. unfold neqb. rewrite !hom_leb; auto. Qed.

Variable pts : list (list T).
Notation pts' := (map (map h) pts).

Lemma hom_len : length pts' = length pts.
Proof. apply map_length. Qed.

Lemma hom_cg x i : cg pts' x i = rmap h (cg pts x i).
Proof.
  unfold cg. rewrite nth_error_map. destruct (nth_error pts x); simpl; auto.
  rewrite nth_error_map. destruct (nth_error l i); auto.
Qed.

Lemma hom_lower_bd m i x : lower_bd pts' (hm m) i x = rmap hm (lower_bd pts m i x).
Proof.
  unfold lower_bd. rewrite hom_cg. apply rmap_bind. intros c. simpl. f_equal.
  rewrite (hom_ltb (h:=h)). destruct (nltb c (bd m i)); auto. rewrite hm_set_bd; auto.
Qed.

Lemma hom_remove_one x i m : remove_one pts' x i (hm m) = rmap hm (remove_one pts x i m).
Proof. apply (hom_lower_bd (set_pv (set_nx m i (pv m i x) (nx m i x)) i (nx m i x) (pv m i x))). Qed.
Lemma hom_reinsert_one x i m : reinsert_one pts' x i (hm m) = rmap hm (reinsert_one pts x i m).
Proof. apply (hom_lower_bd (set_pv (set_nx m i (pv m i x) x) i (nx (set_nx m i (pv m i x) x) i x) x)). Qed.

Lemma hom_for_lists f f' is m : (forall i m, f' i (hm m) = rmap hm (f i m)) ->
  for_lists f' is (hm m) = rmap hm (for_lists f is m).
Proof.
  intros Hf. revert m. induction is as [|i is IH]; intros m; simpl; auto.
  rewrite Hf. apply rmap_bind. auto.
Qed.
Lemma hom_remove x i m : remove pts' x i (hm m) = rmap hm (remove pts x i m).
Proof. apply hom_for_lists. intros; apply hom_remove_one. Qed.
Lemma hom_reinsert x i m : reinsert pts' x i (hm m) = rmap hm (reinsert pts x i m).
Proof. apply hom_for_lists. intros; apply hom_reinsert_one. Qed.

Lemma hom_sweep2 fuel m q p hh v :
  sweep2 pts' fuel (hm m) q p (h hh) (h v) = rmap h (sweep2 pts fuel m q p hh v).
Proof.
  revert q p hh v. induction fuel as [|fuel IH]; intros q p hh v; simpl; auto.
  rewrite hom_len. destruct (p =? length pts).
  - rewrite hom_cg. apply rmap_bind. intros a. simpl. rewrite (hom_add (h:=h)), (hom_mul (h:=h)); auto.
  - rewrite !hom_cg. apply rmap_bind. intros q1. apply rmap_bind. intros p1. apply rmap_bind. intros p0.
    rewrite <- IH. rewrite (hom_add (h:=h)), (hom_mul (h:=h)), (hom_sub (h:=h)), (hom_ltb (h:=h)). destruct (nltb p0 hh); auto.
Qed.

Lemma hom_reset_ignore fuel d q m :
  reset_ignore pts' fuel d q (hm m) = rmap hm (reset_ignore pts fuel d q m).
Proof.
  revert q m. induction fuel as [|fuel IH]; intros q m; simpl; auto.
  rewrite hom_len. destruct (q =? length pts); auto.
  rewrite <- IH. destruct (ig m q <? d); auto.
Qed.

Definition hm4 (r : nat * nat * nat * @mem T) : nat * nat * nat * @mem U :=
  let '(p, q, l, m) := r in (p, q, l, hm m).
Lemma hom_removal_loop d len p q m :
  removal_loop pts' d len p q (hm m) = rmap hm4 (removal_loop pts d len p q m).
Proof.
  revert p q m. induction len as [|len IH]; intros p q m; simpl; auto.
  destruct (len <=? 0); auto.
  rewrite hom_cg. apply rmap_bind. intros cq.
  transitivity (rmap hm4
    (do again <- (if nltb (bd m d) cq then Ok true else do cp <- cg pts (pv m d q) d; Ok (nleb (bd m d) cp));
     if again : bool then do m1 <- remove pts q d m; removal_loop pts d len q (pv m1 d q) m1
     else Ok (p, q, S len, m))); auto.
  rewrite (hom_ltb (h:=h)). rewrite hom_cg.
  assert (E : (if nltb (bd m d) cq then Ok true else do cp <- rmap h (cg pts (pv m d q) d); Ok (nleb (h (bd m d)) cp))
     = (if nltb (bd m d) cq then Ok true else do cp <- cg pts (pv m d q) d; Ok (nleb (bd m d) cp))).
  { destruct (nltb (bd m d) cq); auto. destruct (cg pts (pv m d q) d); simpl; auto. rewrite hom_leb; auto. }
  rewrite E. apply rmap_bind_eq. intros [|]; auto.
  rewrite hom_remove. apply rmap_bind. intros m1. apply IH.
Qed.

Lemma hom_map_res {A} (f : A -> res T) (f' : A -> res U) l :
  (forall a, f' a = rmap h (f a)) -> map_res f' l = rmap (map h) (map_res f l).
Proof.
  intros Hf. induction l as [|a l IH]; simpl; auto.
  rewrite Hf, IH. apply rmap_bind. intros b. apply rmap_bind. auto.
Qed.
Lemma hom_assign_area m q i vals :
  assign_area (hm m) q i (map h vals) = hm (assign_area m q i vals).
Proof.
  revert m i. induction vals as [|v vals IH]; intros m i; simpl; auto.
  rewrite <- IH, hm_set_ar. auto.
Qed.
Lemma hom_singleton_area d q m :
  singleton_area pts' d q (hm m) = rmap hm (singleton_area pts d q m).
Proof.
  unfold singleton_area.
  assert (E : set_ar (hm m) 0 q none_ = hm (set_ar m 0 q none_)) by (rewrite hm_set_ar, (hom_one (h:=h)); auto).
  rewrite E.
  rewrite (hom_map_res (fun i => do c <- cg pts q i; Ok (nmul (ar (set_ar m 0 q none_) i q) (nopp c)))).
  - apply rmap_bind. intros vals. simpl. f_equal. apply hom_assign_area.
  - intros i. rewrite hom_cg. apply rmap_bind. intros c. simpl. rewrite (hom_mul (h:=h)), (hom_opp (h:=h)). auto.
Qed.

Definition hp (r : T * @mem T) : U * @mem U := (h (fst r), hm (snd r)).

Lemma hom_area_step rec rec' d q len m :
  (forall len m, rec' len (hm m) = rmap hp (rec len m)) ->
  area_step rec' d q len (hm m) = rmap hm (area_step rec d q len m).
Proof.
  intros Hr. unfold area_step. change (ig (hm m) q) with (ig m q).
  destruct (d <=? ig m q); [simpl; rewrite hm_set_ar; auto|].
  rewrite Hr. apply rmap_bind. intros [a m1]. simpl. f_equal.
  rewrite <- hm_set_ar.
  assert (E : upd2 (fun i x => h (ar m1 i x)) d q (h a) d (pv m1 d q) = h (upd2 (ar m1) d q a d (pv m1 d q))).
  { unfold upd2. destruct (_ && _); auto. }
  rewrite E, hom_leb. destruct (nleb a _); auto.
Qed.

Definition hp3 (r : nat * T * @mem T) : nat * U * @mem U :=
  let '(q, v, m) := r in (q, h v, hm m).
Lemma hom_reinsertion_loop rec rec' fuel d p q len v m :
  (forall len m, rec' len (hm m) = rmap hp (rec len m)) ->
  reinsertion_loop pts' rec' fuel d p q len (h v) (hm m)
  = rmap hp3 (reinsertion_loop pts rec fuel d p q len v m).
Proof.
  intros Hr. revert p q len v m. induction fuel as [|fuel IH]; intros p q len v m; simpl; auto.
  rewrite hom_len. destruct (p =? length pts); auto.
  rewrite !hom_cg. apply rmap_bind. intros cp. apply rmap_bind. intros cq.
  rewrite <- hm_set_bd, hom_reinsert. apply rmap_bind. intros m2.
  rewrite <- (hom_sub (h:=h)), <- (hom_mul (h:=h)), <- (hom_add (h:=h)), <- hm_set_vo.
  rewrite (hom_area_step rec rec') by auto. apply rmap_bind. intros m4. apply IH.
Qed.

Lemma hom_hv_recursive fuel d len m :
  hv_recursive pts' fuel d len (hm m) = rmap hp (hv_recursive pts fuel d len m).
Proof.
  revert len m. induction d as [|d IH]; intros len m; cbn [hv_recursive].
  - destruct (len =? 0); [simpl; unfold hp; simpl; rewrite (hom_zero (h:=h)); auto|].
    rewrite hom_len, hom_cg. apply rmap_bind. intros c. simpl. unfold hp. simpl. rewrite (hom_opp (h:=h)); auto.
  - destruct (len =? 0); [simpl; unfold hp; simpl; rewrite (hom_zero (h:=h)); auto|].
    rewrite hom_len. destruct (d =? 0).
    + rewrite hom_cg. apply rmap_bind. intros c. rewrite <- (hom_zero (h:=h)). rewrite hom_sweep2. apply rmap_bind. auto.
    + rewrite hom_reset_ignore. apply rmap_bind. intros m0.
      rewrite hom_removal_loop. apply rmap_bind. intros [[[p q] len1] m1]. cbn [hm4].
      rewrite hom_cg. apply rmap_bind. intros cq.
      assert (E : (if 1 <? len1
             then do cqp <- cg pts' (pv (hm m1) (S d) q) (S d);
                  Ok (nadd (vo (hm m1) (S d) (pv (hm m1) (S d) q))
                     (nmul (ar (hm m1) (S d) (pv (hm m1) (S d) q)) (nsub (h cq) cqp)), hm m1)
             else do m2 <- singleton_area pts' (S d) q (hm m1); Ok (nzero, m2)) =
            rmap hp (if 1 <? len1
             then do cqp <- cg pts (pv m1 (S d) q) (S d);
                  Ok (nadd (vo m1 (S d) (pv m1 (S d) q))
                     (nmul (ar m1 (S d) (pv m1 (S d) q)) (nsub cq cqp)), m1)
             else do m2 <- singleton_area pts (S d) q m1; Ok (nzero, m2))).
      { destruct (1 <? len1).
        - rewrite hom_cg. apply rmap_bind. intros cqp. simpl. unfold hp. simpl. rewrite (hom_add (h:=h)), (hom_mul (h:=h)), (hom_sub (h:=h)). auto.
        - rewrite hom_singleton_area. apply rmap_bind. intros m2. simpl. unfold hp. simpl. rewrite (hom_zero (h:=h)). auto. }
      rewrite E. apply rmap_bind. intros [hvol m2]. cbn [hp fst snd].
      rewrite <- hm_set_vo. rewrite (hom_area_step (hv_recursive pts fuel d)) by auto.
      apply rmap_bind. intros m4. rewrite (hom_reinsertion_loop (hv_recursive pts fuel d)) by auto.
      apply rmap_bind. intros [[ql v] m5]. cbn [hp3]. rewrite hom_cg. apply rmap_bind. intros cl.
      simpl. unfold hp; simpl. rewrite (hom_sub (h:=h)), (hom_mul (h:=h)). auto.
Qed.

Variable argsort : list T -> list nat.
Variable argsort' : list U -> list nat.
Hypothesis Hargsort : forall l, argsort' (map h l) = argsort l.

Lemma hom_sort_by_dimension nodes i :
  sort_by_dimension pts' argsort' nodes i = sort_by_dimension pts argsort nodes i.
Proof.
  unfold sort_by_dimension. f_equal. rewrite <- Hargsort. f_equal. rewrite map_map. apply map_ext. intros x.
  rewrite <- (hom_zero (h:=h)). change (@nil U) with (map h []). rewrite map_nth. apply map_nth.
Qed.
Lemma hom_extend nodes i m : extend pts' nodes i (hm m) = hm (extend pts nodes i m).
Proof.
  unfold extend. rewrite hom_len. revert m.
  induction nodes as [|x nodes IH]; intros m; simpl; auto. rewrite <- IH. auto.
Qed.
Lemma hom_pre_process is nodes m :
  pre_process pts' argsort' is nodes (hm m) = hm (pre_process pts argsort is nodes m).
Proof.
  revert nodes m. induction is as [|i is IH]; intros nodes m; simpl; auto.
  rewrite hom_sort_by_dimension, hom_extend. apply IH.
Qed.
Lemma hom_init_mem minf : init_mem pts' (h minf) = hm (init_mem pts minf).
Proof. unfold init_mem, hm. simpl. rewrite hom_len, (hom_zero (h:=h)). auto. Qed.

End Hom.

Section HomTop.
Context {T U : Type} `{NT : Num T} `{NU : Num U} (h : T -> U) {Hh : NumHom h}.

Lemma hom_weakly_dom p o : weakly_dom (map h p) (map h o) = weakly_dom p o.
Proof.
  revert o. induction p as [|x p IH]; intros [|y o]; simpl; auto.
  rewrite (hom_ltb (h:=h)), IH. auto.
Qed.
Lemma hom_vsub a b : vsub (map h a) (map h b) = map h (vsub a b).
Proof.
  revert b. induction a as [|x a IH]; intros [|y b]; simpl; auto. rewrite (hom_sub (h:=h)), IH. auto.
Qed.
Lemma hom_any_nonzero l : any_nonzero (map h l) = any_nonzero l.
Proof.
  unfold any_nonzero. induction l as [|x l IH]; simpl; auto. rewrite IH, <- (hom_zero (h:=h)), hom_eqb; auto.
Qed.
Lemma filter_map_comm {A B} (f : A -> B) (p : B -> bool) l : filter p (map f l) = map f (filter (fun x => p (f x)) l).
Proof. induction l as [|x l IH]; simpl; auto. destruct (p (f x)); simpl; rewrite IH; auto. Qed.
Lemma hom_relevant front ref :
  relevant_points (map (map h) front) (map h ref) = map (map h) (relevant_points front ref).
Proof.
  unfold relevant_points. rewrite hom_any_nonzero. rewrite filter_map_comm.
  rewrite (filter_ext (fun x => weakly_dom (map h x) (map h ref)) (fun p => weakly_dom p ref))
    by (intros; apply hom_weakly_dom).
  destruct (any_nonzero ref); auto. rewrite !map_map. apply map_ext. intros; apply hom_vsub.
Qed.

Theorem hom_hypervolume minf argsort argsort' front ref :
  (forall l, argsort' (map h l) = argsort l) ->
  hypervolume (h minf) argsort' (map (map h) front) (map h ref) = rmap h (hypervolume minf argsort front ref).
Proof.
  intros Ha. unfold hypervolume. rewrite hom_relevant, !map_length.
  destruct (length ref) as [|d].
  - destruct (_ =? 0); simpl; auto. rewrite (hom_zero (h:=h)); auto.
  - rewrite (hom_init_mem h). rewrite (hom_pre_process h _ argsort argsort') by auto.
    rewrite (hom_hv_recursive h). apply rmap_bind. intros [v m]. auto.
Qed.
End HomTop.

(** * A stable insertion sort, as numpy uses for short arrays *)
Section Stable.
Context {T : Type} `{Num T}.
Fixpoint ins_idx (l : list T) (i : nat) (acc : list nat) : list nat :=
  match acc with
  | [] => [i]
  | j :: acc' => if nleb (nth i l nzero) (nth j l nzero) then i :: acc else j :: ins_idx l i acc'
  end.
Definition stable_argsort (l : list T) : list nat := fold_right (ins_idx l) [] (seq 0 (length l)).
End Stable.

Lemma hom_ins_idx {T U} `{NT : Num T} `{NU : Num U} (h : T -> U) {Hh : NumHom h} l i acc :
  ins_idx (map h l) i acc = ins_idx l i acc.
Proof.
  induction acc as [|j acc IH]; simpl; auto.
  rewrite <- (hom_zero (h:=h)), !map_nth, hom_leb, IH; auto.
Qed.
Lemma hom_stable_argsort {T U} `{NT : Num T} `{NU : Num U} (h : T -> U) {Hh : NumHom h} l :
  stable_argsort (map h l) = stable_argsort l.
Proof.
  unfold stable_argsort. rewrite map_length. induction (seq 0 (length l)) as [|i s IH]; simpl; auto.
  rewrite IH. apply hom_ins_idx; auto.
Qed.

Lemma ins_idx_perm (l : list R) i acc : Permutation (ins_idx l i acc) (i :: acc).
Proof.
  induction acc as [|j acc IH]; simpl; auto. destruct (nleb _ _); auto.
  rewrite IH. apply perm_swap.
Qed.
Lemma ins_idx_sorted (l : list R) i acc :
  StronglySorted (fun a b => (nth a l 0 <= nth b l 0)%R) acc ->
  StronglySorted (fun a b => (nth a l 0 <= nth b l 0)%R) (ins_idx l i acc).
Proof.
  induction acc as [|j acc IH]; intros Hs; simpl.
  - constructor; constructor.
  - inversion Hs as [|? ? H1 H2]; subst. change (@nzero R _) with 0%R.
    destruct (nleb_spec (nth i l 0%R) (nth j l 0%R)) as [Hl|Hl].
    + constructor; auto. constructor; auto.
      rewrite Forall_forall in *. intros x Hx. specialize (H2 x Hx). lra.
    + constructor; [auto|]. rewrite Forall_forall in *. intros x Hx.
      apply (Permutation_in _ (ins_idx_perm l i acc)) in Hx. destruct Hx as [<-|Hx]; auto. lra.
Qed.
Theorem stable_argsort_ok : argsort_ok (stable_argsort (T:=R)).
Proof.
  intros l. unfold stable_argsort. split.
  - induction (seq 0 (length l)) as [|i s IH]; simpl; auto. rewrite ins_idx_perm. auto.
  - induction (seq 0 (length l)) as [|i s IH]; simpl; [constructor|]. apply ins_idx_sorted; auto.
Qed.

Lemma ins_idx_stable (l : list R) i acc : (forall j, In j acc -> (i < j)%nat) ->
  StronglySorted (fun a b => (nth a l 0 <= nth b l 0)%R) acc ->
  StronglySorted (fun a b => nth a l 0%R = nth b l 0%R -> (a < b)%nat) acc ->
  StronglySorted (fun a b => nth a l 0%R = nth b l 0%R -> (a < b)%nat) (ins_idx l i acc).
Proof.
  induction acc as [|j acc IH]; intros Hi Ho Hs; simpl.
  - constructor; constructor.
  - inversion Hs as [|? ? H1 H2]; subst. inversion Ho as [|? ? H3 H4]; subst. change (@nzero R _) with 0%R.
    destruct (nleb_spec (nth i l 0%R) (nth j l 0%R)) as [Hl|Hl].
    + constructor; auto. rewrite Forall_forall. intros x Hx _. apply Hi; auto.
    + constructor; [apply IH; auto; intros; apply Hi; simpl; auto|]. rewrite Forall_forall in *. intros x Hx Heq.
      apply (Permutation_in _ (ins_idx_perm l i acc)) in Hx. destruct Hx as [<-|Hx]; [lra|auto].
Qed.
Theorem stable_argsort_stable : argsort_stable (stable_argsort (T:=R)).
Proof.
  split; [exact stable_argsort_ok|]. intros l. unfold stable_argsort.
  assert (Hall : forall n s, (forall j, In j (fold_right (ins_idx l) [] (seq s n)) -> (s <= j)%nat) /\
    StronglySorted (fun a b => (nth a l 0 <= nth b l 0)%R) (fold_right (ins_idx l) [] (seq s n)) /\
    StronglySorted (fun a b => nth a l 0%R = nth b l 0%R -> (a < b)%nat) (fold_right (ins_idx l) [] (seq s n))).
  { induction n as [|n IH]; intros s'; simpl; [split; [intros j []|split; constructor]|].
    destruct (IH (S s')) as (I1 & I2 & I3). split; [|split].
    - intros j Hj. apply (Permutation_in _ (ins_idx_perm l s' _)) in Hj. destruct Hj as [<-|Hj]; auto.
      specialize (I1 j Hj). lia.
    - apply ins_idx_sorted; auto.
    - apply ins_idx_stable; auto. }
  apply Hall.
Qed.

(** running the model on integer data gives its value on the reals *)
Theorem hypervolume_run minf (front : list (list Z)) (ref : list Z) :
  hypervolume (IZR minf) stable_argsort (map (map IZR) front) (map IZR ref)
  = rmap IZR (hypervolume minf stable_argsort front ref).
Proof. apply (hom_hypervolume IZR). intros l. apply (hom_stable_argsort IZR). Qed.
