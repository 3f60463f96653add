(** Proofs about the interface of [MultiList]. *)
From Coq Require Import List Arith Reals Bool Lia FunctionalExtensionality.
From Verif Require Import Num Exn ListAux HVModel HVLinks HVProof HVTop MlModel MlSpec.
Import ListNotations.
Open Scope nat_scope.

Lemma adj_cons a b l c e : adj (a :: b :: l) c e <-> (c = a /\ e = b) \/ adj (b :: l) c e.
Proof.
  split.
  - intros (l1 & l2 & E). destruct l1 as [|y l1]; simpl in E; inversion E; subst; auto. right. exists l1, l2. auto.
  - intros [[-> ->]|(l1 & l2 & E)]; [exists [], l; auto|exists (a :: l1), l2; simpl; rewrite E; auto].
Qed.
Lemma path_adj f b l : forall a, path f a l b <-> (forall c e, adj (a :: l ++ [b]) c e -> f c = e).
Proof.
  induction l as [|x l IH]; intros a; cbn [path app].
  - split.
    + intros E c e H. apply adj_cons in H as [[-> ->]|(l1 & l2 & E2)]; auto. destruct l1 as [|? [|]]; discriminate.
    + intros H. apply H. exists [], []. reflexivity.
  - rewrite IH. split.
    + intros [E Hp] c e H. apply adj_cons in H as [[-> ->]|H]; auto.
    + intros Hp. split; [apply Hp; exists [], (l ++ [b]); reflexivity|]. intros c e H. apply Hp. apply adj_cons. auto.
Qed.
Lemma adj_rev l c e : adj l c e -> adj (rev l) e c.
Proof. intros (l1 & l2 & ->). exists (rev l2), (rev l1). rewrite rev_app_distr. simpl. rewrite <- !app_assoc. reflexivity. Qed.
Lemma adj_rev_iff l c e : adj (rev l) e c <-> adj l c e.
Proof. split; intros H; [apply adj_rev in H; rewrite rev_involutive in H; auto|apply adj_rev; auto]. Qed.

Lemma holds_Rep N P s l : holds N P s l <-> Rep N P s l.
Proof.
  unfold holds, Rep. rewrite !path_adj.
  assert (Er : s :: rev l ++ [s] = rev (s :: l ++ [s])) by (simpl; rewrite rev_app_distr; reflexivity).
  rewrite Er. split.
  - intros (Hs & Hn & H1 & H2). split; [constructor; auto|]. intros a b Hab. split; [apply H1; auto|].
    apply H2. apply adj_rev. auto.
  - intros [Hn H]. inversion Hn; subst. split; [auto|]. split; [auto|]. split.
    + intros c e Hc. apply H. auto.
    + intros c e Hc. apply H. apply adj_rev_iff. auto.
Qed.

Section Proof.
Context {T : Type} `{Num T}.
Variable pts : list (list T).
Notation n := (length pts).

Lemma append_extend x i (m : @mem T) : append pts x i m = extend pts [x] i m.
Proof. reflexivity. Qed.

Lemma length_from_path (m : @mem T) i l : forall a len fuel, ~ In n l -> path (nx m i) a l n -> length l <= fuel ->
  length_from pts fuel m i (nx m i a) len = Ok (len + length l).
Proof.
  induction l as [|x l IH]; intros a len fuel Hn Hp Hf; cbn [path] in Hp.
  - rewrite Hp. destruct fuel; cbn [length_from]; rewrite Nat.eqb_refl; cbn [length]; rewrite Nat.add_0_r; reflexivity.
  - destruct Hp as [E Hp]. rewrite E. assert (Hx : Nat.eqb x n = false) by (apply Nat.eqb_neq; intros ->; apply Hn; simpl; auto).
    cbn [length] in Hf. destruct fuel as [|f]; [lia|]. cbn [length_from]. rewrite Hx.
    rewrite IH; [cbn [length]; f_equal; lia|intros Hi; apply Hn; simpl; auto|auto|lia].
Qed.
Lemma items_from_path (m : @mem T) i l : forall a cur fuel, ~ In n l -> path (nx m i) a l n -> length l <= fuel ->
  items_from pts fuel m i (nx m i a) cur = Ok (cur ++ l).
Proof.
  induction l as [|x l IH]; intros a cur fuel Hn Hp Hf; cbn [path] in Hp.
  - rewrite Hp. destruct fuel; cbn [items_from]; rewrite Nat.eqb_refl, app_nil_r; reflexivity.
  - destruct Hp as [E Hp]. rewrite E. assert (Hx : Nat.eqb x n = false) by (apply Nat.eqb_neq; intros ->; apply Hn; simpl; auto).
    cbn [length] in Hf. destruct fuel as [|f]; [lia|]. cbn [items_from]. rewrite Hx.
    rewrite IH; [rewrite <- app_assoc; reflexivity|intros Hi; apply Hn; simpl; auto|auto|lia].
Qed.
Lemma iter_S {A} k (f : A -> A) x : Nat.iter (S k) f x = Nat.iter k f (f x).
Proof. induction k as [|k IH]; cbn in *; [auto|f_equal; auto]. Qed.
(** a walk that never comes back never ends *)
Lemma length_from_lost (m : @mem T) i : forall fuel a len, (forall k, Nat.iter k (nx m i) a <> n) ->
  length_from pts fuel m i a len = Exn OutOfFuel.
Proof.
  induction fuel as [|f IH]; intros a len Hk; cbn [length_from]; (destruct (Nat.eqb_spec a n) as [E|_]; [exfalso; apply (Hk 0); auto|]); auto.
  apply IH. intros k Ek. apply (Hk (S k)). rewrite iter_S. auto.
Qed.

Definition out (x : nat) (l : list nat) : list nat := filter (fun y => negb (Nat.eqb y x)) l.
Lemma out_notin x l : ~ In x l -> out x l = l.
Proof.
  induction l as [|y l IH]; intros Hx; cbn; auto. destruct (Nat.eqb_spec y x) as [->|]; [exfalso; apply Hx; simpl; auto|].
  cbn. f_equal. apply IH. intros Hi. apply Hx. simpl; auto.
Qed.
Lemma out_split x l1 l2 : NoDup (l1 ++ x :: l2) -> out x (l1 ++ x :: l2) = l1 ++ l2.
Proof.
  intros Hn. apply NoDup_remove_2 in Hn. unfold out. rewrite filter_app. cbn. rewrite Nat.eqb_refl. cbn.
  rewrite in_app_iff in Hn. f_equal; apply out_notin; tauto.
Qed.

(** the memory after [remove] *)
Variable c : nat -> nat -> T.
Definition removed (x d : nat) (m : @mem T) : mem :=
  mkMem (fst (lrem d x (lk m))) (snd (lrem d x (lk m))) (ig m) (ar m) (vo m)
        (fun i => if Nat.ltb i d then low c x (bd m i) i else bd m i).

Lemma removed_rep x d (m : @mem T) (L : nat -> list nat) i : (i < d -> In x (L i)) ->
  Rep (nx m i) (pv m i) n (L i) ->
  Rep (nx (removed x d m) i) (pv (removed x d m) i) n (if Nat.ltb i d then out x (L i) else L i).
Proof.
  intros Hin HR. destruct (Nat.ltb_spec i d) as [Hi|Hi].
  - destruct (in_split _ _ (Hin Hi)) as (l1 & l2 & E). rewrite E in *. rewrite out_split by (destruct HR as [Hn _]; inversion Hn; auto).
    destruct (Rep_remove _ _ _ _ _ _ HR) as (HR' & _). revert HR'. apply Rep_ext; intros y; cbn [removed nx pv lrem fst snd lk]; unfold upd1;
    apply Nat.ltb_lt in Hi; rewrite Hi; reflexivity.
  - revert HR. apply Rep_ext; intros y; cbn [removed nx pv lrem fst snd lk]; apply Nat.ltb_ge in Hi; rewrite Hi; reflexivity.
Qed.
Lemma rep_consistent x d (m : @mem T) (L : nat -> list nat) : (forall i, i < d -> In x (L i) /\ Rep (nx m i) (pv m i) n (L i)) ->
  consistent d x (lk m).
Proof.
  intros Hi i Hd. destruct (Hi i Hd) as [Hin HR]. destruct (in_split _ _ Hin) as (l1 & l2 & E). rewrite E in *.
  destruct (Rep_remove _ _ _ _ _ _ HR) as (_ & R1 & R2 & R3 & R4). cbn. auto.
Qed.

Lemma reinsert_all_app a b (m : @mem T) : reinsert_all pts (a ++ b) m = (do m1 <- reinsert_all pts a m; reinsert_all pts b m1).
Proof. revert m. induction a as [|[x d] a IH]; intros m; cbn [app reinsert_all bind]; auto. destruct (reinsert pts x d m); cbn [bind]; auto. Qed.

Definition gone (calls : list (nat * nat)) (i y : nat) : bool := existsb (fun xd => Nat.eqb (fst xd) y && Nat.ltb i (snd xd)) calls.

Lemma filter_filter {A} (f g : A -> bool) l : filter f (filter g l) = filter (fun x => g x && f x) l.
Proof. induction l as [|x l IH]; cbn; auto. destruct (g x); cbn; rewrite IH; auto. Qed.

Lemma lifo calls : forall k (m : @mem T) (L : nat -> list nat), (forall i, i < k -> Rep (nx m i) (pv m i) n (L i)) ->
  NoDup (map fst calls) ->
  (forall x d, In (x, d) calls -> d <= k /\ (forall i, i < d -> In x (L i) /\ cg pts x i = Ok (c x i))) ->
  exists m1 m2, remove_all pts calls m = Ok m1 /\ reinsert_all pts (rev calls) m1 = Ok m2 /\
    (forall i, i < k -> Rep (nx m1 i) (pv m1 i) n (filter (fun y => negb (gone calls i y)) (L i))) /\
    nx m2 = nx m /\ pv m2 = pv m /\ ig m2 = ig m /\ ar m2 = ar m /\ vo m2 = vo m.
Proof.
  induction calls as [|[x d] calls IH]; intros k m L HR Hnd Hc.
  - exists m, m. cbn. split; [auto|]. split; [auto|]. split; [|auto 6]. intros i Hi.
    assert (E : filter (fun y : nat => true) (L i) = L i) by (induction (L i) as [|y l IHl]; cbn; [auto|f_equal; auto]). rewrite E. auto.
  - cbn [map fst] in Hnd. inversion Hnd as [|? ? Hx Hnd']; subst.
    destruct (Hc x d (or_introl eq_refl)) as [Hdk Hxd].
    assert (Ecg : forall i, i < d -> cg pts x i = Ok (c x i)) by (intros i Hi; apply Hxd; auto).
    assert (Hcons : consistent d x (lk m)) by (apply (rep_consistent x d m L); intros i Hi; split; [apply Hxd; auto|apply HR; lia]).
    cbn [remove_all]. rewrite (remove_spec pts c x d m Ecg). cbn [bind]. fold (removed x d m).
    set (L' := fun i => if Nat.ltb i d then out x (L i) else L i).
    destruct (IH k (removed x d m) L') as (m1 & m2 & E1 & E2 & H1 & En & Ep & Eg & Ea & Ev).
    + intros i Hi. apply removed_rep; [|auto]. intros Hi2. apply Hxd; auto.
    + auto.
    + intros y e Hy. destruct (Hc y e (or_intror Hy)) as [He Hin]. split; [auto|]. intros i Hi. destruct (Hin i Hi) as [Hyi Hcy].
      split; [|auto]. unfold L'. destruct (Nat.ltb i d); auto. apply filter_In. split; [auto|]. apply negb_true_iff, Nat.eqb_neq.
      intros ->. apply Hx. apply in_map_iff. exists (x, e). auto.
    + assert (Hlk : lk m2 = lrem d x (lk m)) by (unfold lk; rewrite En, Ep; reflexivity).
      eexists m1, _. split; [exact E1|]. split.
      { cbn [rev]. rewrite reinsert_all_app, E2. cbn [bind reinsert_all].
        rewrite (reinsert_spec pts c x d m2 Ecg); [reflexivity|].
        intros i Hi. rewrite Ep. cbn [removed pv lrem fst snd lk]. destruct (Hcons i Hi) as (C1 & C2 & C3 & C4). cbn [lk fst snd] in C1, C2, C3, C4.
        destruct (Nat.ltb i d && Nat.eqb x (nx m i x)) eqn:Eb; [|auto]. apply andb_true_iff in Eb as [_ Eb]. apply Nat.eqb_eq in Eb. congruence. }
      split.
      { intros i Hi. specialize (H1 i Hi). unfold L' in H1.
        replace (filter (fun y => negb (gone ((x, d) :: calls) i y)) (L i)) with
                (filter (fun y => negb (gone calls i y)) (if Nat.ltb i d then out x (L i) else L i)); [exact H1|].
        unfold out. destruct (Nat.ltb i d) eqn:El.
        - rewrite filter_filter. apply filter_ext. intros y. cbn [gone existsb fst snd]. fold (gone calls i y). rewrite El, andb_true_r, negb_orb, (Nat.eqb_sym x y). reflexivity.
        - apply filter_ext. intros y. cbn [gone existsb fst snd]. fold (gone calls i y). rewrite El, andb_false_r. reflexivity. }
      cbn [nx pv ig ar vo]. rewrite Hlk, (lins_lrem d x (lk m) Hcons). cbn. auto.
Qed.
End Proof.
