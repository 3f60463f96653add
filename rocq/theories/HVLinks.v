(** The linked-list layer of the hypervolume algorithm: what [remove] and [reinsert]
    do to the lists, to the bounds, and that they undo each other. *)
From Coq Require Import List Arith Reals Bool Lra Lia Permutation Sorted FunctionalExtensionality.
From Verif Require Import Num Exn ListAux HVModel.
Import ListNotations.
Open Scope nat_scope.

(** * Circular doubly linked lists *)
Definition adj (l : list nat) (a b : nat) : Prop := exists l1 l2, l = l1 ++ a :: b :: l2.

Definition Rep (nxi pvi : nat -> nat) (s : nat) (l : list nat) : Prop :=
  NoDup (s :: l) /\ forall a b, adj (s :: l ++ [s]) a b -> nxi a = b /\ pvi b = a.

Lemma adj_in_l l a b c : adj (l ++ [c]) a b -> In a l.
Proof.
  intros (l1 & l2 & E). assert (Hx : l = removelast (l1 ++ a :: b :: l2)) by (rewrite <- E, removelast_last; auto).
  rewrite Hx, removelast_app by discriminate. apply in_or_app. right. simpl. auto.
Qed.
Lemma adj_in_r l a b c : adj (c :: l) a b -> In b l.
Proof.
  intros (l1 & l2 & E). destruct l1 as [|x l1]; simpl in E; injection E; intros; subst; simpl; auto.
  apply in_or_app. right. simpl. auto.
Qed.
Lemma adj_cases u a b w c e :
  adj (u ++ a :: b :: w) c e -> adj (u ++ [a]) c e \/ (c = a /\ e = b) \/ adj (b :: w) c e.
Proof.
  revert a b w; induction u as [|x u IH]; intros a b w (l1 & l2 & E).
  - simpl in E. destruct l1 as [|y l1]; simpl in E.
    + injection E; intros; subst. right; left; auto.
    + injection E; intros E' ->. right; right. exists l1, l2. auto.
  - destruct l1 as [|y l1]; simpl in E.
    + injection E; intros E' ->. left. destruct u as [|z u]; simpl in *.
      * injection E'; intros; subst. exists [], []. reflexivity.
      * injection E'; intros; subst. exists [], (u ++ [a]). reflexivity.
    + injection E; intros E' ->. destruct (IH a b w) as [(m1 & m2 & H)|[H|H]]; [exists l1, l2; auto| |auto|auto].
      left. exists (y :: m1), m2. simpl. rewrite H. reflexivity.
Qed.
Lemma adj_app_l u v c e : adj u c e -> adj (u ++ v) c e.
Proof. intros (l1 & l2 & ->). exists l1, (l2 ++ v). rewrite <- app_assoc. reflexivity. Qed.
Lemma adj_app_r u v c e : adj v c e -> adj (u ++ v) c e.
Proof. intros (l1 & l2 & ->). exists (u ++ l1), l2. rewrite <- app_assoc. reflexivity. Qed.

Lemma snoc_cases (s : nat) (l : list nat) : exists u a, s :: l = u ++ [a].
Proof. destruct (exists_last (l := s :: l)) as (u & a & E); [discriminate|]. eauto. Qed.
Lemma cons_cases (l : list nat) (s : nat) : exists b w, l ++ [s] = b :: w.
Proof. destruct l as [|b l]; simpl; eauto. Qed.

Lemma Rep_remove nxi pvi s l1 x l2 (p := pvi x) (t := nxi x) :
  Rep nxi pvi s (l1 ++ x :: l2) ->
  Rep (upd1 nxi p t) (upd1 pvi t p) s (l1 ++ l2) /\
  nxi p = x /\ pvi t = x /\ p <> x /\ t <> x.
Proof.
  intros [Hnd Hadj].
  destruct (snoc_cases s l1) as (u & a & Ea). destruct (cons_cases l2 s) as (b & w & Eb).
  assert (Efull : s :: (l1 ++ x :: l2) ++ [s] = u ++ a :: x :: b :: w).
  { rewrite <- app_assoc. simpl. rewrite Eb. rewrite app_comm_cons, Ea, <- app_assoc. reflexivity. }
  assert (Enew : s :: (l1 ++ l2) ++ [s] = u ++ a :: b :: w).
  { rewrite <- app_assoc, Eb, app_comm_cons, Ea, <- app_assoc. reflexivity. }
  assert (Hax : nxi a = x /\ pvi x = a) by (apply Hadj; rewrite Efull; exists u, (b :: w); auto).
  assert (Hxb : nxi x = b /\ pvi b = x)
    by (apply Hadj; rewrite Efull; exists (u ++ [a]), w; rewrite <- app_assoc; auto).
  destruct Hax as [Ha1 Ha2], Hxb as [Hb1 Hb2].
  assert (Hp : p = a) by auto. assert (Ht : t = b) by auto.
  assert (Hina : In a (s :: l1)) by (rewrite Ea; apply in_or_app; simpl; auto).
  assert (Hinb : In b (l2 ++ [s])) by (rewrite Eb; simpl; auto).
  assert (Hnd' := Hnd). inversion Hnd' as [|? ? Hs Hl]; subst x0 l.
  assert (Hnd1 : NoDup (s :: l1)).
  { rewrite app_comm_cons in Hnd. apply NoDup_app_iff in Hnd. tauto. }
  assert (Hnd2 : NoDup (x :: l2)) by (apply NoDup_app_iff in Hl; tauto).
  assert (Hdisj : forall y, In y l1 -> ~ In y (x :: l2)).
  { intros y Hy1 Hy2. apply (in_split y l1) in Hy1 as (m1 & m2 & ->). rewrite <- app_assoc in Hl. simpl in Hl.
    apply NoDup_remove_2 in Hl. apply Hl. rewrite !in_app_iff. auto. }
  assert (Hxs : x <> s) by (intros ->; apply Hs; rewrite in_app_iff; simpl; auto).
  assert (Hs1 : ~ In s l1) by (intros Hin; apply Hs; rewrite in_app_iff; auto).
  assert (Hs2 : ~ In s l2) by (intros Hin; apply Hs; rewrite in_app_iff; simpl; auto).
  assert (Hx1 : ~ In x (s :: l1)).
  { intros [E|Hin]; [auto|]. apply (Hdisj x Hin). simpl; auto. }
  assert (Hx2 : ~ In x (l2 ++ [s])).
  { rewrite in_app_iff. intros [Hin|[E|[]]]; [|auto]. inversion Hnd2; auto. }
  repeat match goal with |- _ /\ _ => split end.
  - split; [constructor; [rewrite in_app_iff; tauto|apply NoDup_remove_1 in Hl; auto]|].
    intros c e Hce. rewrite Enew in Hce. rewrite Hp, Ht. unfold upd1.
    apply adj_cases in Hce as [Hce|[[-> ->]|Hce]].
    + assert (Hcu : In c u) by (eapply adj_in_l; eauto).
      assert (Hca : c <> a).
      { intros ->. rewrite Ea in Hnd1. apply NoDup_remove_2 in Hnd1. rewrite app_nil_r in Hnd1. auto. }
      assert (He1 : In e l1) by (rewrite <- Ea in Hce; eapply adj_in_r; eauto).
      assert (Heb : e <> b).
      { intros ->. apply in_app_iff in Hinb as [Hin|[E|[]]]; [apply (Hdisj b He1); simpl; auto|rewrite <- E in He1; auto]. }
      apply Nat.eqb_neq in Hca, Heb. rewrite Hca, Heb.
      apply Hadj. rewrite Efull. replace (u ++ a :: x :: b :: w) with ((u ++ [a]) ++ x :: b :: w)
        by (rewrite <- app_assoc; auto). apply adj_app_l. auto.
    + rewrite !Nat.eqb_refl. auto.
    + assert (Hce' := Hce). rewrite <- Eb in Hce'.
      assert (Hcu : In c l2) by (eapply adj_in_l; eauto).
      assert (Hca : c <> a).
      { intros ->. destruct Hina as [E|Hin]; [rewrite <- E in Hcu; auto|]. apply (Hdisj a Hin). simpl; auto. }
      assert (He1 : In e w) by (eapply adj_in_r; eauto).
      assert (Heb : e <> b).
      { intros ->. assert (Hn : NoDup (l2 ++ [s])).
        { apply NoDup_app_iff. inversion Hnd2. repeat split; auto; [repeat constructor; auto|].
          intros y Hy [<-|[]]; auto. }
        rewrite Eb in Hn. inversion Hn; auto. }
      apply Nat.eqb_neq in Hca, Heb. rewrite Hca, Heb.
      apply Hadj. rewrite Efull.
      replace (u ++ a :: x :: b :: w) with ((u ++ [a; x]) ++ b :: w) by (rewrite <- app_assoc; auto).
      apply adj_app_r. auto.
  - rewrite Hp. auto.
  - rewrite Ht. auto.
  - rewrite Hp. intros ->. auto.
  - rewrite Ht. intros ->. auto.
Qed.

(** * The pure link part of [remove] *)
Definition links := ((nat -> nat -> nat) * (nat -> nat -> nat))%type.
Definition lrem (d x : nat) (L : links) : links :=
  (fun i y => if Nat.ltb i d && Nat.eqb y (snd L i x) then fst L i x else fst L i y,
   fun i y => if Nat.ltb i d && Nat.eqb y (fst L i x) then snd L i x else snd L i y).
Definition lins (d x : nat) (L : links) : links :=
  (fun i y => if Nat.ltb i d && Nat.eqb y (snd L i x) then x else fst L i y,
   fun i y => if Nat.ltb i d && Nat.eqb y (fst L i x) then x else snd L i y).

Definition consistent (d x : nat) (L : links) : Prop :=
  forall i, i < d -> fst L i (snd L i x) = x /\ snd L i (fst L i x) = x /\ snd L i x <> x /\ fst L i x <> x.

Lemma lins_lrem d x L : consistent d x L -> lins d x (lrem d x L) = L.
Proof.
  destruct L as [N P]. intros Hc. unfold lins, lrem. simpl. f_equal.
  - extensionality i. extensionality y. destruct (Nat.ltb_spec i d) as [Hi|Hi]; simpl; auto.
    destruct (Hc i Hi) as (H1 & H2 & H3 & H4). simpl in *.
    destruct (Nat.eqb_spec x (N i x)) as [E|_]; [congruence|].
    destruct (Nat.eqb_spec y (P i x)) as [->|]; auto.
  - extensionality i. extensionality y. destruct (Nat.ltb_spec i d) as [Hi|Hi]; simpl; auto.
    destruct (Hc i Hi) as (H1 & H2 & H3 & H4). simpl in *.
    destruct (Nat.eqb_spec x (P i x)) as [E|_]; [congruence|].
    destruct (Nat.eqb_spec y (N i x)) as [->|]; auto.
Qed.

Definition lk {T} (m : @mem T) : links := (nx m, pv m).

(** * What [remove] and [reinsert] do to the memory *)
Section Mem.
Context {T : Type} `{Num T}.
Variable pts : list (list T).
Variable c : nat -> nat -> T.

Definition low (x : nat) (b : T) (i : nat) : T := if nltb (c x i) b then c x i else b.

Lemma for_lists_app (f : nat -> @mem T -> res (@mem T)) l1 l2 (m : @mem T) :
  for_lists f (l1 ++ l2) m = (do m1 <- for_lists f l1 m; for_lists f l2 m1).
Proof.
  revert m; induction l1 as [|i l1 IH]; intros m; simpl; auto.
  destruct (f i m); simpl; auto.
Qed.

Lemma mem_eq (m m' : @mem T) : nx m = nx m' -> pv m = pv m' -> ig m = ig m' -> ar m = ar m' -> vo m = vo m' ->
  bd m = bd m' -> m = m'.
Proof. destruct m, m'; simpl; intros; subst; auto. Qed.

Lemma remove_spec x d m : (forall i, i < d -> cg pts x i = Ok (c x i)) ->
  remove pts x d m =
    Ok (mkMem (fst (lrem d x (lk m))) (snd (lrem d x (lk m))) (ig m) (ar m) (vo m)
        (fun i => if Nat.ltb i d then low x (bd m i) i else bd m i)).
Proof.
  induction d as [|d IH]; intros Hc.
  - unfold remove. simpl. f_equal. destruct m; reflexivity.
  - unfold remove in *. rewrite seq_S, for_lists_app, IH by auto. simpl.
    unfold remove_one, lower_bd. simpl. rewrite Hc by lia. simpl. f_equal.
    set (m0 := mkMem _ _ _ _ _ _).
    assert (E : forall i, Nat.ltb i (S d) = Nat.ltb i d || Nat.eqb i d).
    { intros i. destruct (Nat.ltb_spec i (S d)), (Nat.ltb_spec i d), (Nat.eqb_spec i d); simpl; auto; lia. }
    assert (Ed : Nat.ltb d d = false) by (apply Nat.ltb_irrefl).
    unfold low. destruct (nltb _ _) eqn:El; apply mem_eq; simpl; auto.
    all: try (extensionality i; try (extensionality y); unfold upd1, upd2; rewrite ?E, ?Ed; simpl;
      destruct (Nat.eqb_spec i d) as [->|Hne]; simpl; rewrite ?orb_false_r, ?Ed; simpl; auto).
    + rewrite Ed in El. rewrite El. auto.
    + rewrite Ed in El. rewrite El. auto.
Qed.

Lemma reinsert_spec x d m : (forall i, i < d -> cg pts x i = Ok (c x i)) ->
  (forall i, i < d -> pv m i x <> x) ->
  reinsert pts x d m =
    Ok (mkMem (fst (lins d x (lk m))) (snd (lins d x (lk m))) (ig m) (ar m) (vo m)
        (fun i => if Nat.ltb i d then low x (bd m i) i else bd m i)).
Proof.
  induction d as [|d IH]; intros Hc Hp.
  - unfold reinsert. simpl. f_equal. destruct m; reflexivity.
  - unfold reinsert in *. rewrite seq_S, for_lists_app, IH by auto. simpl.
    unfold reinsert_one, lower_bd. simpl. rewrite Hc by lia. simpl. f_equal.
    set (m0 := mkMem _ _ _ _ _ _).
    assert (E : forall i, Nat.ltb i (S d) = Nat.ltb i d || Nat.eqb i d).
    { intros i. destruct (Nat.ltb_spec i (S d)), (Nat.ltb_spec i d), (Nat.eqb_spec i d); simpl; auto; lia. }
    assert (Ed : Nat.ltb d d = false) by (apply Nat.ltb_irrefl).
    assert (Hx : Nat.eqb x (pv m d x) = false) by (apply Nat.eqb_neq; intros Heq; apply (Hp d); [lia|auto]).
    unfold low. destruct (nltb _ _) eqn:El; apply mem_eq; simpl; auto.
    all: try (extensionality i; try (extensionality y); unfold upd1, upd2; rewrite ?E, ?Ed; simpl;
      destruct (Nat.eqb_spec i d) as [->|Hne]; simpl; rewrite ?orb_false_r, ?Ed; simpl; rewrite ?Ed; simpl; auto).
    all: try (rewrite Nat.eqb_refl, Hx; simpl; auto).
    all: try (rewrite Ed in El; rewrite El; auto).
Qed.
End Mem.
