(** Property theorems: the interface of the multiple linked lists of the hypervolume code. *)
From Coq Require Import List Arith Bool Reals Lra Lia Permutation FunctionalExtensionality.
From Verif Require Import Num Exn ListAux HVModel HVLinks HVProof HVTop MlModel MlSpec MlProof.
Import ListNotations.
Open Scope nat_scope.

(** list [i] of the memory holds the nodes [l] *)
Definition contents (pts : list (list R)) (m : @mem R) (i : nat) (l : list nat) : Prop :=
  holds (nx m i) (pv m i) (length pts) l.
(** coordinate [i] of the point of node [x] *)
Definition coord (pts : list (list R)) (x i : nat) : R := nth i (nth x pts []) 0%R.
Definition others_same (m m' : @mem R) (i : nat) : Prop := forall j, j <> i -> nx m' j = nx m j /\ pv m' j = pv m j.

Lemma cg_coord pts x d : x < length pts -> d <= length (nth x pts []) -> forall i, i < d -> cg pts x i = Ok (coord pts x i).
Proof.
  intros Hx Hd i Hi. unfold cg, coord. rewrite (nth_error_nth' pts [] Hx). rewrite (nth_error_nth' _ 0%R) by lia. reflexivity.
Qed.

(** * C178: the lists *)
Theorem C178_new : forall pts minf i, contents pts (init_mem pts minf) i [].
Proof. intros pts minf i. split; [auto|]. split; [constructor|]. split; reflexivity. Qed.
Print Assumptions C178_new.

Theorem C178_extend : forall pts m i l ns, contents pts m i l -> NoDup (l ++ ns) -> (forall x, In x ns -> x < length pts) ->
  contents pts (extend pts ns i m) i (l ++ ns) /\ others_same m (extend pts ns i m) i /\ bd (extend pts ns i m) = bd m.
Proof.
  intros pts m i l ns Hc Hn Hx. apply holds_Rep in Hc. destruct (extend_spec pts ns i m l Hc Hn Hx) as (H1 & H2 & _ & _ & _ & H3).
  split; [apply holds_Rep; auto|split; auto].
Qed.
Print Assumptions C178_extend.

Theorem C178_append : forall pts m i l x, contents pts m i l -> ~ In x l -> x < length pts ->
  contents pts (append pts x i m) i (l ++ [x]) /\ others_same m (append pts x i m) i /\ bd (append pts x i m) = bd m.
Proof.
  intros pts m i l x Hc Hx Hl. rewrite append_extend. apply C178_extend; auto.
  - apply NoDup_app_iff. split; [apply Hc|]. split; [repeat constructor; auto|]. intros y Hy [<-|[]]; auto.
  - intros y [<-|[]]. auto.
Qed.
Print Assumptions C178_append.

Theorem C178_extend_appends : forall pts ns i (m : @mem R), extend pts ns i m = fold_left (fun m x => append pts x i m) ns m.
Proof. reflexivity. Qed.
Print Assumptions C178_extend_appends.

(** [getLength] and the printed nodes, with any fuel from the length of the list on *)
Theorem C178_length : forall pts m i l fuel, contents pts m i l -> length l <= fuel ->
  get_length pts fuel m i = Ok (length l) /\ items pts fuel m i = Ok l.
Proof.
  intros pts m i l fuel (Hs & _ & Hp & _) Hf. split.
  - unfold get_length. rewrite (length_from_path pts m i l) by auto. reflexivity.
  - unfold items. rewrite (items_from_path pts m i l) by auto. reflexivity.
Qed.
Print Assumptions C178_length.

Theorem C178_show : forall pts m k L fuel, (forall i, i < k -> contents pts m i (L i) /\ length (L i) <= fuel) ->
  show pts fuel k m = Ok (map L (seq 0 k)).
Proof.
  intros pts m k L fuel Hc. unfold show.
  assert (H : forall is, (forall i, In i is -> i < k) -> items_all pts fuel m is = Ok (map L is)).
  { induction is as [|i is IH]; intros Hi; cbn [items_all map]; auto.
    destruct (Hc i (Hi i (or_introl eq_refl))) as [H1 H2]. destruct (C178_length pts m i (L i) fuel H1 H2) as [_ E].
    rewrite E. cbn [bind]. rewrite IH by (intros j Hj; apply Hi; simpl; auto). reflexivity. }
  apply H. intros i Hi. apply in_seq in Hi. lia.
Qed.
Print Assumptions C178_show.

(** no fuel suffices for a list that does not come back to the sentinel: the loop of the code does not end *)
Theorem C178_endless : forall pts (m : @mem R) i fuel, (forall k, Nat.iter (S k) (nx m i) (length pts) <> length pts) ->
  get_length pts fuel m i = Exn OutOfFuel.
Proof.
  intros pts m i fuel Hk. apply length_from_lost. intros k Ek. apply (Hk k). rewrite iter_S. auto.
Qed.
Print Assumptions C178_endless.

(** * C179: taking nodes out and putting them back *)
Definition min_of (a b : R) : R := if Rlt_dec b a then b else a.

Theorem C179_remove : forall pts (m : @mem R) k L x d, (forall i, i < k -> contents pts m i (L i)) -> d <= k ->
  x < length pts -> d <= length (nth x pts []) -> (forall i, i < d -> In x (L i)) ->
  exists m', remove pts x d m = Ok m' /\
    (forall i, i < d -> exists l1 l2, L i = l1 ++ x :: l2 /\ contents pts m' i (l1 ++ l2)) /\
    (forall i, d <= i -> nx m' i = nx m i /\ pv m' i = pv m i) /\
    (forall i, nx m' i x = nx m i x /\ pv m' i x = pv m i x) /\
    (forall i, bd m' i = if Nat.ltb i d then min_of (bd m i) (coord pts x i) else bd m i).
Proof.
  intros pts m k L x d HC Hdk Hx Hd Hin. exists (removed (coord pts) x d m).
  split. { apply (remove_spec pts (coord pts)). apply cg_coord; auto. }
  assert (HR : forall i, i < k -> Rep (nx m i) (pv m i) (length pts) (L i)) by (intros i Hi; apply holds_Rep, HC; auto).
  split; [|split; [|split]].
  - intros i Hi. destruct (in_split _ _ (Hin i Hi)) as (l1 & l2 & E). exists l1, l2. split; [auto|]. apply holds_Rep.
    assert (Hik : i < k) by lia. pose proof (removed_rep pts (coord pts) x d m L i (Hin i) (HR i Hik)) as H1.
    apply Nat.ltb_lt in Hi. rewrite Hi in H1. rewrite E in H1. rewrite out_split in H1; auto.
    rewrite <- E. destruct (HR i Hik) as [Hn _]. inversion Hn; auto.
  - intros i Hi. apply Nat.ltb_ge in Hi. split; extensionality y; cbn [removed nx pv lrem fst snd lk]; rewrite Hi; reflexivity.
  - intros i. cbn [removed nx pv lrem fst snd lk].
    destruct (Nat.ltb i d) eqn:El; [|split; reflexivity].
    apply Nat.ltb_lt in El. assert (Hc : consistent d x (lk m)).
    { apply (rep_consistent pts x d m L). intros j Hj. split; [auto|apply HR; lia]. }
    destruct (Hc i El) as (_ & _ & C3 & C4). cbn [lk fst snd] in C3, C4.
    apply not_eq_sym, Nat.eqb_neq in C3. apply not_eq_sym, Nat.eqb_neq in C4. rewrite C3, C4. split; reflexivity.
  - intros i. cbn [removed bd]. destruct (Nat.ltb i d); [|reflexivity]. unfold low, min_of.
    destruct (nltb_spec (coord pts x i) (bd m i)), (Rlt_dec (coord pts x i) (bd m i)); tauto.
Qed.
Print Assumptions C179_remove.

(** nodes taken out one after the other and put back in the opposite order: all links as before *)
Theorem C179_undo : forall pts (m : @mem R) k L calls, (forall i, i < k -> contents pts m i (L i)) -> NoDup (map fst calls) ->
  (forall x d, In (x, d) calls -> d <= k /\ x < length pts /\ d <= length (nth x pts []) /\ forall i, i < d -> In x (L i)) ->
  exists m1 m2, remove_all pts calls m = Ok m1 /\ reinsert_all pts (rev calls) m1 = Ok m2 /\
    (forall i, i < k -> exists l, contents pts m1 i l /\
       (forall y, In y l <-> In y (L i) /\ ~ exists d, In (y, d) calls /\ i < d)) /\
    nx m2 = nx m /\ pv m2 = pv m /\ (forall i, i < k -> contents pts m2 i (L i)) /\
    ig m2 = ig m /\ ar m2 = ar m /\ vo m2 = vo m.
Proof.
  intros pts m k L calls HC Hnd Hc.
  destruct (lifo pts (coord pts) calls k m L) as (m1 & m2 & E1 & E2 & H1 & En & Ep & Eg & Ea & Ev).
  - intros i Hi. apply holds_Rep, HC; auto.
  - auto.
  - intros x d Hxd. destruct (Hc x d Hxd) as (Hdk & Hx & Hl & Hin). split; [auto|]. intros i Hi. split; [auto|].
    apply (cg_coord pts x d); auto.
  - exists m1, m2. split; [auto|]. split; [auto|]. split.
    { intros i Hi. eexists. split; [apply holds_Rep, H1; auto|]. intros y. rewrite filter_In, negb_true_iff. split.
      - intros [Hy Hg]. split; [auto|]. intros (d & Hd & Hid). assert (Ht : gone calls i y = true); [|congruence].
        apply existsb_exists. exists (y, d). split; [auto|]. cbn [fst snd]. rewrite Nat.eqb_refl. apply Nat.ltb_lt. auto.
      - intros [Hy Hn]. split; [auto|]. destruct (gone calls i y) eqn:Hg; [|auto]. exfalso. apply Hn.
        apply existsb_exists in Hg as ([z d] & Hz & Eb). cbn [fst snd] in Eb. apply andb_true_iff in Eb as [Ez El].
        apply Nat.eqb_eq in Ez. apply Nat.ltb_lt in El. subst. exists d. auto. }
    split; [auto|]. split; [auto|]. split; [|auto]. intros i Hi. unfold contents. rewrite En, Ep. apply HC. auto.
Qed.
Print Assumptions C179_undo.

(** the order matters: put back in some other order, the links are not restored *)
Definition threepts : list (list R) := [[1%R]; [2%R]; [3%R]].
Definition threemem : @mem R := extend threepts [0; 1; 2] 0 (init_mem threepts 0%R).
Lemma three_contents : contents threepts threemem 0 [0; 1; 2].
Proof.
  apply (C178_extend threepts (init_mem threepts 0%R) 0 [] [0; 1; 2]); [apply C178_new|repeat constructor; cbn; intuition discriminate|].
  cbn. intros x [<-|[<-|[<-|[]]]]; lia.
Qed.
Definition inserted (c : nat -> nat -> R) (x d : nat) (m : @mem R) : mem :=
  mkMem (fst (lins d x (lk m))) (snd (lins d x (lk m))) (ig m) (ar m) (vo m)
        (fun i => if Nat.ltb i d then low c x (bd m i) i else bd m i).
Lemma three_cg x : x < 3 -> forall i, i < 1 -> cg threepts x i = Ok (coord threepts x i).
Proof. intros Hx. apply cg_coord; [exact Hx|]. destruct x as [|[|[|x]]]; cbn; lia. Qed.
Lemma three_insert x (m : @mem R) : x < 3 -> pv m 0 x <> x -> reinsert threepts x 1 m = Ok (inserted (coord threepts) x 1 m).
Proof.
  intros Hx Hp. apply (reinsert_spec threepts (coord threepts) x 1 m (three_cg x Hx)). intros i Hi. assert (i = 0) as -> by lia. auto.
Qed.
Theorem C179_order_refuted : exists pts (m m1 m2 : @mem R) calls calls' l, contents pts m 0 l /\ NoDup (map fst calls) /\
  (forall x d, In (x, d) calls -> d = 1 /\ In x l) /\ Permutation calls calls' /\
  remove_all pts calls m = Ok m1 /\ reinsert_all pts calls' m1 = Ok m2 /\ ~ contents pts m2 0 l.
Proof.
  set (c := coord threepts).
  set (m1 := removed c 2 1 (removed c 1 1 (removed c 0 1 threemem))).
  set (m2 := inserted c 1 1 (inserted c 2 1 (inserted c 0 1 m1))).
  exists threepts, threemem, m1, m2, [(0, 1); (1, 1); (2, 1)], [(0, 1); (2, 1); (1, 1)], [0; 1; 2].
  split; [apply three_contents|].
  split. { repeat constructor; cbn; intuition discriminate. }
  split. { intros x d [E|[E|[E|[]]]]; injection E as <- <-; cbn; auto. }
  split. { apply perm_skip, perm_swap. }
  split. { cbn [remove_all]. rewrite (remove_spec threepts c 0 1) by (apply three_cg; lia). cbn [bind].
    rewrite (remove_spec threepts c 1 1) by (apply three_cg; lia). cbn [bind].
    rewrite (remove_spec threepts c 2 1) by (apply three_cg; lia). reflexivity. }
  split. { cbn [reinsert_all]. rewrite three_insert; [|lia|vm_compute; discriminate]. cbn [bind].
    rewrite three_insert; [|lia|vm_compute; discriminate]. cbn [bind].
    rewrite three_insert; [|lia|vm_compute; discriminate]. reflexivity. }
  intros (_ & _ & Hp & _). cbn [path] in Hp. destruct Hp as (P1 & _). revert P1. vm_compute. discriminate.
Qed.
Print Assumptions C179_order_refuted.

(** a list with two nodes *)
Definition twopts : list (list R) := [[1%R]; [2%R]].
Definition twomem : @mem R := extend twopts [0; 1] 0 (init_mem twopts 0%R).
(** both taken out and put back *)
Example C178_example : contents twopts twomem 0 [0; 1] /\ ~ In 1 [0] /\ NoDup ([0] ++ [1]) /\
  get_length twopts 2 twomem 0 = Ok 2 /\ items twopts 2 twomem 0 = Ok [0; 1].
Proof.
  split. { apply (C178_extend twopts (init_mem twopts 0%R) 0 [] [0; 1]); [apply C178_new|repeat constructor; cbn; intuition discriminate|cbn; intros x [<-|[<-|[]]]; lia]. }
  split. { cbn. intuition discriminate. } split. { repeat constructor; cbn; intuition discriminate. } split; vm_compute; reflexivity.
Qed.
Example C178_endless_example : exists (m : @mem R), forall k, Nat.iter (S k) (nx m 0) (length twopts) <> length twopts.
Proof.
  exists (set_nx (set_nx twomem 0 1 1) 0 2 1). intros k.
  assert (E : Nat.iter (S k) (nx (set_nx (set_nx twomem 0 1 1) 0 2 1) 0) (length twopts) = 1).
  { induction k as [|k IH]; [vm_compute; reflexivity|]. change (nx (set_nx (set_nx twomem 0 1 1) 0 2 1) 0 (Nat.iter (S k) (nx (set_nx (set_nx twomem 0 1 1) 0 2 1) 0) (length twopts)) = 1). rewrite IH. vm_compute. reflexivity. }
  rewrite E. cbn. discriminate.
Qed.
Example C179_example : (forall i, i < 1 -> contents twopts twomem i [0; 1]) /\ NoDup (map fst [(1, 1); (0, 1)]) /\
  (forall x d, In (x, d) [(1, 1); (0, 1)] -> d <= 1 /\ x < length twopts /\ d <= length (nth x twopts []) /\ forall i, i < d -> In x [0; 1]).
Proof.
  split. { intros i Hi. assert (i = 0) as -> by lia. apply C178_example. }
  split. { repeat constructor; cbn; intuition discriminate. }
  intros x d [E|[E|[]]]; injection E as <- <-; cbn; repeat split; auto.
Qed.
