(** Proofs about the State model. *)
From Coq Require Import List Arith Bool Reals Lia Lra String.
From Verif Require Import Num Exn ListAux StateModel StateSpec.
Import ListNotations.
Open Scope R_scope.

Lemma combine_map2 {A B C} (f : A -> B) (g : A -> C) X : combine (map f X) (map g X) = map (fun x => (f x, g x)) X.
Proof. induction X; simpl; congruence. Qed.

Section Rows.
Context {TY TJ TG TH : Type} (zeroG : TG) (zeroH : TH) (c : @config TY TJ TG TH).
Hypothesis Hrw : rowwise_all c.

Lemma eval_pop_rows {A} (f : callback A) X : rowwise f -> X <> [] -> eval_pop f X = Ok (map (cb_point f) X).
Proof using. intros H HX. unfold eval_pop. destruct (cb_batch f) eqn:E. rewrite (H _ E); auto. destruct X; congruence. Qed.

Definition opt_ok {A} (n : nat) (f : option (callback (list A))) (x : list R) : bool :=
  match f with None => true | Some f => (List.length (cb_point f x) =? n)%nat end.
Definition opt_row {A} (zero : A) (n : nat) (f : option (callback (list A))) (x : list R) : list A :=
  match f with None => repeat zero n | Some f => cb_point f x end.

Lemma opt_pop {A} zero n (f : option (callback (list A))) X : rowwise_opt f -> X <> [] ->
  eval_opt_pop zero n f X = if forallb (opt_ok n f) X then Ok (map (opt_row zero n f) X) else Exn ValueError.
Proof using.
  intros H HX. unfold eval_opt_pop, opt_ok, opt_row. destruct f as [f|].
  - simpl in H. rewrite eval_pop_rows by auto. simpl. unfold check_rows. clear HX.
    replace (forallb (fun r => (List.length r =? n)%nat) (map (cb_point f) X)) with (forallb (fun x => (List.length (cb_point f x) =? n)%nat) X); auto.
    induction X; simpl; congruence.
  - replace (forallb _ X) with true; auto. clear. induction X; simpl; auto.
Qed.
Lemma opt_one {A} zero n (f : option (callback (list A))) x :
  eval_opt_one zero n f x = if opt_ok n f x then Ok (opt_row zero n f x) else Exn ValueError.
Proof using. unfold eval_opt_one, opt_ok, opt_row. destruct f; auto. Qed.
Lemma opt_row_length {A} zero n (f : option (callback (list A))) x : opt_ok n f x = true -> List.length (opt_row zero n f x) = n.
Proof using. unfold opt_ok, opt_row. destruct f; [apply Nat.eqb_eq|intros; apply repeat_length]. Qed.

Definition hg (x : list R) := (opt_row 0 (c_neq c) (c_h c) x, opt_row 0 (c_nieq c) (c_g c) x).
Definition ok_cstr x := opt_ok (c_neq c) (c_h c) x && opt_ok (c_nieq c) (c_g c) x.
Definition ok_jac x := no_cjac c || (opt_ok (c_neq c) (c_hjac c) x && opt_ok (c_nieq c) (c_gjac c) x).
Definition ok_hess x := no_chess c || (opt_ok (c_neq c) (c_hhess c) x && opt_ok (c_nieq c) (c_ghess c) x).
Definition jac_row x := if no_cjac c then [] else opt_row zeroG (c_neq c) (c_hjac c) x ++ opt_row zeroG (c_nieq c) (c_gjac c) x.
Definition hess_row x := if no_chess c then repeat zeroH (c_neq c + c_nieq c)
  else opt_row zeroH (c_neq c) (c_hhess c) x ++ opt_row zeroH (c_nieq c) (c_ghess c) x.

Lemma forallb_and {A} (f g : A -> bool) l : forallb (fun x => f x && g x) l = forallb f l && forallb g l.
Proof using. induction l; simpl; auto. rewrite IHl. destruct (f a), (g a), (forallb f l), (forallb g l); auto. Qed.

Lemma cstr_pop X : X <> [] ->
  eval_cstr_pop c X = if forallb ok_cstr X then Ok (map (fun x => cstr_row (hg x)) X, map (fun x => active_row c (hg x)) X) else Exn ValueError.
Proof using Hrw.
  intros HX. destruct Hrw as (_ & _ & Hh & _ & _ & Hg & _). unfold eval_cstr_pop. rewrite !opt_pop by auto.
  unfold ok_cstr. rewrite forallb_and. destruct (forallb (opt_ok (c_neq c) (c_h c)) X); simpl; auto.
  destruct (forallb (opt_ok (c_nieq c) (c_g c)) X); simpl; auto. rewrite !map_length, Nat.eqb_refl, combine_map2, !map_map. reflexivity.
Qed.
Lemma cstr_one x : eval_cstr_one c x = if ok_cstr x then Ok (cstr_row (hg x), active_row c (hg x)) else Exn ValueError.
Proof using.
  unfold eval_cstr_one, ok_cstr. rewrite !opt_one. destruct (opt_ok (c_neq c) (c_h c) x); simpl; auto.
  destruct (opt_ok (c_nieq c) (c_g c) x); simpl; auto.
Qed.
Lemma stack_pop_rows {A} (zero : A) fh fg X : rowwise_opt fh -> rowwise_opt fg -> X <> [] ->
  stack_pop c zero fh fg X = if forallb (fun x => opt_ok (c_neq c) fh x && opt_ok (c_nieq c) fg x) X
    then Ok (map (fun x => opt_row zero (c_neq c) fh x ++ opt_row zero (c_nieq c) fg x) X) else Exn ValueError.
Proof using.
  intros Hh Hg HX. unfold stack_pop. rewrite !opt_pop by auto. rewrite forallb_and.
  destruct (forallb (opt_ok (c_neq c) fh) X); simpl; auto. destruct (forallb (opt_ok (c_nieq c) fg) X); simpl; auto.
  rewrite !map_length, Nat.eqb_refl, combine_map2, !map_map. reflexivity.
Qed.
Lemma stack_one_row {A} (zero : A) fh fg x :
  stack_one c zero fh fg x = if opt_ok (c_neq c) fh x && opt_ok (c_nieq c) fg x
    then Ok (opt_row zero (c_neq c) fh x ++ opt_row zero (c_nieq c) fg x) else Exn ValueError.
Proof using.
  unfold stack_one. rewrite !opt_one. destruct (opt_ok (c_neq c) fh x); simpl; auto. destruct (opt_ok (c_nieq c) fg x); simpl; auto.
Qed.
Lemma forallb_true {A} (l : list A) : forallb (fun _ => true) l = true.
Proof using. induction l; auto. Qed.
Lemma jac_pop X : X <> [] -> eval_cjac_pop zeroG c X = if forallb ok_jac X then Ok (map jac_row X) else Exn ValueError.
Proof using Hrw.
  intros HX. destruct Hrw as (_ & _ & _ & Hh & _ & _ & Hg & _). unfold eval_cjac_pop, ok_jac, jac_row.
  destruct (no_cjac c) eqn:E; simpl. rewrite forallb_true. auto. rewrite stack_pop_rows by auto. reflexivity.
Qed.
Lemma jac_one x : eval_cjac_one zeroG c x = if ok_jac x then Ok (jac_row x) else Exn ValueError.
Proof using.
  unfold eval_cjac_one, ok_jac, jac_row. destruct (no_cjac c); simpl; auto. apply stack_one_row.
Qed.
Lemma hess_pop X : X <> [] -> eval_chess_pop zeroH c X = if forallb ok_hess X then Ok (map hess_row X) else Exn ValueError.
Proof using Hrw.
  intros HX. destruct Hrw as (_ & _ & _ & _ & Hh & _ & _ & Hg). unfold eval_chess_pop, ok_hess, hess_row.
  destruct (no_chess c) eqn:E; simpl. rewrite forallb_true. auto. rewrite stack_pop_rows by auto. reflexivity.
Qed.
Lemma hess_one x : eval_chess_one zeroH c x = if ok_hess x then Ok (hess_row x) else Exn ValueError.
Proof using.
  unfold eval_chess_one, ok_hess, hess_row. destruct (no_chess c); simpl; auto. apply stack_one_row.
Qed.

Definition ok_row (hess : bool) (x : list R) : bool :=
  let p := firstn (c_nvar c) x in ok_cstr p && (ok_jac p && (negb hess || ok_hess p)).
Definition pr (x : list R) := firstn (c_nvar c) x.
Lemma update_rows s X grad hess : X <> [] ->
  update zeroG zeroH c s X grad hess = if forallb (ok_row hess) X then
    Ok (mkSt X (map (fun x => cb_point (c_func c) (pr x)) X)
         (if grad then Some (map (fun x => cb_point (c_jac c) (pr x)) X) else None)
         (map (fun x => cstr_row (hg (pr x))) X) (map (fun x => active_row c (hg (pr x))) X)
         (map (fun x => jac_row (pr x)) X)
         (if hess then Some (map (fun x => hess_row (pr x)) X) else s_hess s)
         (n_jac s + if grad then List.length X else 0)
         (n_cjac s + if no_cjac c then 0 else List.length X)
         (n_chess s + if hess then (if no_chess c then 0 else List.length X) else 0))
  else Exn ValueError.
Proof using Hrw.
  intros HX. assert (HP : primal c X <> []) by (destruct X; simpl; congruence).
  unfold update. destruct Hrw as (Hf & Hj & _). rewrite !eval_pop_rows by auto. rewrite cstr_pop, jac_pop, hess_pop by auto.
  unfold ok_row. rewrite forallb_and, forallb_and.
  assert (Ef : forall f : list R -> bool, forallb f (primal c X) = forallb (fun x => f (pr x)) X).
  { intros f. unfold primal, pr. clear. induction X; simpl; congruence. }
  assert (Em : forall A (f : list R -> A), map f (primal c X) = map (fun x => f (pr x)) X).
  { intros A f. unfold primal. rewrite map_map. reflexivity. }
  rewrite !Ef, !Em. simpl.
  unfold pr.
  assert (Eh : forallb (fun x => negb hess || ok_hess (firstn (c_nvar c) x)) X = negb hess || forallb (fun x => ok_hess (firstn (c_nvar c) x)) X).
  { destruct hess; simpl; auto. apply forallb_true. }
  rewrite Eh.
  destruct grad; simpl; (destruct (forallb (fun x => ok_cstr (firstn (c_nvar c) x)) X); simpl; [|reflexivity]);
    (destruct (forallb (fun x => ok_jac (firstn (c_nvar c) x)) X); simpl; [|reflexivity]);
    (destruct hess; simpl; [|reflexivity]); destruct (forallb (fun x => ok_hess (firstn (c_nvar c) x)) X); reflexivity.
Qed.

Lemma set_row_length {A} k (x : A) l : List.length (set_row k x l) = List.length l.
Proof using. revert k. induction l; intros [|k]; simpl; auto. Qed.
Lemma set_row_map {A B} (f : A -> B) k x l : map f (set_row k x l) = set_row k (f x) (map f l).
Proof using. revert k. induction l; intros [|k]; simpl; auto. rewrite IHl. auto. Qed.
Lemma set_row_nth {A} k (x : A) l j : nth_error (set_row k x l) j = if (j =? k)%nat && (k <? List.length l)%nat then Some x else nth_error l j.
Proof using.
  revert k j. induction l as [|a l IH]; intros [|k] [|j]; simpl; auto; rewrite ?andb_false_r; auto.
  rewrite IH. simpl. reflexivity.
Qed.
Lemma forallb_set_row {A} (f : A -> bool) k x l : (k < List.length l)%nat -> forallb f l = true -> forallb f (set_row k x l) = f x.
Proof using.
  revert k. induction l as [|a l IH]; intros [|k]; simpl; intros Hk H; try lia; apply andb_true_iff in H as [Ha Hl].
  rewrite Hl, andb_true_r. auto. rewrite Ha. simpl. apply IH; auto. lia.
Qed.

(** C20 *)
Lemma update_one_update s0 X s x k : update zeroG zeroH c s0 X true true = Ok s -> (k < List.length X)%nat ->
  match update_one zeroG zeroH c s x k, update zeroG zeroH c s0 (set_row k x X) true true with
  | Ok a, Ok b => data a = data b
  | Exn e, Exn e' => e = e'
  | _, _ => False
  end.
Proof using Hrw.
  intros E Hk. assert (HX : X <> []) by (intros ->; simpl in Hk; lia).
  rewrite update_rows in E by auto. destruct (forallb (ok_row true) X) eqn:Ef; [|discriminate]. injection E as <-.
  assert (HX' : set_row k x X <> []) by (intros E; apply (f_equal (@List.length _)) in E; rewrite set_row_length in E; simpl in E; lia).
  rewrite update_rows, forallb_set_row by auto. unfold update_one, put_opt, put_row. cbn [s_X s_Y s_J s_cstr s_active s_grad s_hess bind].
  rewrite !map_length. replace (k <? List.length X)%nat with true by (symmetry; apply Nat.ltb_lt; auto). cbn [bind].
  rewrite cstr_one, jac_one, hess_one. unfold ok_row. cbn [negb orb].
  destruct (ok_cstr (firstn (c_nvar c) x)); cbn [bind andb]; auto.
  destruct (ok_jac (firstn (c_nvar c) x)); cbn [bind andb]; auto.
  destruct (ok_hess (firstn (c_nvar c) x)); cbn [bind]; auto.
  unfold data. cbn [s_X s_Y s_J s_cstr s_active s_grad s_hess fst snd]. rewrite !set_row_map. reflexivity.
Qed.

(** C24 *)
Lemma take_rows_ok {A} (l : list A) ix r : take_rows l ix = Ok r <-> map (nth_error l) ix = map Some r.
Proof using.
  revert r. induction ix as [|i ix IH]; simpl; intros r.
  - split. intros E. injection E as <-. auto. destruct r; simpl; congruence.
  - unfold take_rows in *. destruct (fold_right _ _ ix) as [r'|e]; simpl.
    + destruct (nth_error l i) as [x|]; simpl.
      * split. intros E. injection E as <-. simpl. f_equal. apply IH. auto.
        destruct r as [|y r]; simpl; intros E; [discriminate|]. injection E as -> E. apply IH in E. congruence.
      * split; [discriminate|]. destruct r; simpl; discriminate.
    + split; [discriminate|]. destruct r as [|y r]; simpl; intros E; [discriminate|]. injection E as _ E. apply IH in E. discriminate.
Qed.
Lemma take_rows_map {A B} (f : A -> B) l ix r : take_rows l ix = Ok r -> take_rows (map f l) ix = Ok (map f r).
Proof using.
  intros H. apply take_rows_ok in H. apply take_rows_ok. rewrite map_map. rewrite <- (map_map Some (option_map f)).
  rewrite <- H, map_map. apply map_ext. intros i. destruct (nth_error l i) eqn:E; simpl. apply map_nth_error; auto.
  apply nth_error_None. rewrite map_length. apply nth_error_None. auto.
Qed.
Lemma take_rows_in {A} (l : list A) ix r x : take_rows l ix = Ok r -> In x r -> In x l.
Proof using.
  intros H Hx. apply take_rows_ok in H. assert (Hin : In (Some x) (map (nth_error l) ix)) by (rewrite H; apply in_map; auto).
  apply in_map_iff in Hin as (i & Ei & _). apply nth_error_In in Ei. auto.
Qed.
Lemma take_rows_length {A} (l : list A) ix r : take_rows l ix = Ok r -> List.length r = List.length ix.
Proof using. intros H. apply take_rows_ok in H. apply (f_equal (@List.length _)) in H. rewrite !map_length in H. auto. Qed.
Lemma take_rows_exists {A} (l : list A) ix : (forall i, In i ix -> (i < List.length l)%nat) -> exists r, take_rows l ix = Ok r.
Proof using.
  induction ix as [|i ix IH]; intros H. exists []. reflexivity. destruct IH as (r & Er). { intros; apply H; simpl; auto. }
  unfold take_rows in *. simpl. rewrite Er. simpl. destruct (nth_error l i) eqn:E. eauto. apply nth_error_None in E.
  specialize (H i (or_introl eq_refl)). lia.
Qed.

Lemma getitem_update s0 s1 X s ix X' : update zeroG zeroH c s0 X true true = Ok s -> take_rows X ix = Ok X' -> ix <> [] ->
  exists a b, getitem s ix = Ok a /\ update zeroG zeroH c s1 X' true true = Ok b /\ data a = data b.
Proof using Hrw.
  intros E Et Hix. assert (HX' : X' <> []).
  { intros ->. apply take_rows_length in Et. destruct ix; simpl in Et; congruence. }
  assert (HX : X <> []). { intros ->. destruct X' as [|x X']; [congruence|]. apply (take_rows_in _ _ _ x) in Et; simpl in *; auto. }
  rewrite update_rows in E by auto. destruct (forallb (ok_row true) X) eqn:Ef; [|discriminate]. injection E as <-.
  rewrite update_rows by auto. replace (forallb (ok_row true) X') with true.
  2:{ symmetry. apply forallb_forall. intros x Hx. rewrite forallb_forall in Ef. apply Ef. eapply take_rows_in; eauto. }
  unfold getitem, take_opt. cbn [s_X s_Y s_J s_cstr s_active s_grad s_hess bind]. rewrite Et.
  rewrite !(fun B (f : list R -> B) => take_rows_map f X ix X' Et). cbn [bind].
  eexists. eexists. split; [reflexivity|]. split; reflexivity.
Qed.

End Rows.

(** C21 *)
Section Counters.
Context {TY TJ TG TH : Type} (zeroG : TG) (zeroH : TH) (c : @config TY TJ TG TH).
Ltac inv_bind :=
  repeat match goal with
  | H : bind ?r _ = Ok _ |- _ => let E := fresh "E" in destruct r eqn:E; cbn [bind] in H; [|discriminate H]
  end.
Lemma step_counters s o s' : step_op zeroG zeroH c s o = Ok s' ->
  n_jac s' = (n_jac s + jac_points o)%nat /\
  n_cjac s' = (n_cjac s + if no_cjac c then 0 else points o)%nat /\
  n_chess s' = (n_chess s + if no_chess c then 0 else hess_points o)%nat.
Proof.
  destruct o as [X g h|x k]; simpl; intros H.
  - unfold update in H. inv_bind. injection H as <-. cbn [n_jac n_cjac n_chess]. repeat split. destruct h, (no_chess c); auto.
  - unfold update_one in H. inv_bind. injection H as <-. cbn [n_jac n_cjac n_chess]. repeat split.
Qed.
Lemma run_counters ops s s' : run_ops zeroG zeroH c s ops = Ok s' ->
  n_jac s' = (n_jac s + list_sum (map jac_points ops))%nat /\
  n_cjac s' = (n_cjac s + if no_cjac c then 0 else list_sum (map points ops))%nat /\
  n_chess s' = (n_chess s + if no_chess c then 0 else list_sum (map hess_points ops))%nat.
Proof.
  revert s. induction ops as [|o ops IH]; intros s H; simpl in H.
  - injection H as <-. simpl. destruct (no_cjac c), (no_chess c); lia.
  - inv_bind. apply step_counters in E. apply IH in H. simpl.
    destruct E as (E1 & E2 & E3), H as (H1 & H2 & H3). rewrite H1, H2, H3, E1, E2, E3.
    destruct (no_cjac c), (no_chess c); lia.
Qed.

(** C22: rows of constraint values and active flags *)
Definition cstr_wf (s : @state TY TJ TG TH) : Prop :=
  List.length (s_cstr s) = List.length (s_active s) /\
  forall i C A, nth_error (s_cstr s) i = Some C -> nth_error (s_active s) i = Some A ->
    exists H G, List.length H = c_neq c /\ List.length G = c_nieq c /\ C = H ++ G /\ A = repeat true (c_neq c) ++ map is_active G.

Lemma check_rows_inv {A} n (rows r : list (list A)) : check_rows n rows = Ok r -> r = rows /\ forall x, In x r -> List.length x = n.
Proof.
  unfold check_rows. destruct (forallb _ rows) eqn:E; [|discriminate]. intros H. injection H as <-. split; auto.
  intros x Hx. rewrite forallb_forall in E. apply Nat.eqb_eq, E; auto.
Qed.
Lemma opt_pop_len {A} (zero : A) n f X r : eval_opt_pop zero n f X = Ok r -> forall x, In x r -> List.length x = n.
Proof.
  unfold eval_opt_pop. destruct f as [f|]; intros H.
  - inv_bind. apply check_rows_inv in H. apply H.
  - injection H as <-. intros x Hx. apply in_map_iff in Hx as (y & <- & _). apply repeat_length.
Qed.
Lemma opt_one_len {A} (zero : A) n f x r : eval_opt_one zero n f x = Ok r -> List.length r = n.
Proof.
  unfold eval_opt_one. destruct f as [f|]; intros H.
  - unfold check_row in H. destruct (_ =? _)%nat eqn:E; [|discriminate]. injection H as <-. apply Nat.eqb_eq; auto.
  - injection H as <-. apply repeat_length.
Qed.
Lemma cstr_pop_wf P CA : eval_cstr_pop c P = Ok CA ->
  List.length (fst CA) = List.length (snd CA) /\
  forall i C A, nth_error (fst CA) i = Some C -> nth_error (snd CA) i = Some A ->
    exists H G, List.length H = c_neq c /\ List.length G = c_nieq c /\ C = H ++ G /\ A = repeat true (c_neq c) ++ map is_active G.
Proof.
  unfold eval_cstr_pop. intros H. inv_bind. destruct (_ =? _)%nat eqn:El; [|discriminate]. injection H as <-. simpl. split.
  rewrite !map_length; auto. intros i C A HC HA. rewrite nth_error_map in HC. rewrite nth_error_map in HA.
  destruct (nth_error (combine a a0) i) as [[H G]|] eqn:Ei; [|discriminate]. simpl in *. injection HC as <-. injection HA as <-.
  apply nth_error_In in Ei. pose proof (in_combine_l _ _ _ _ Ei). pose proof (in_combine_r _ _ _ _ Ei).
  exists H, G. split. eapply opt_pop_len; eauto. split. eapply opt_pop_len; eauto. split; auto.
Qed.
Lemma put_row_inv {A} k (x : A) l r : put_row k x l = Ok r -> (k < List.length l)%nat /\ r = set_row k x l.
Proof. unfold put_row. destruct (k <? List.length l)%nat eqn:E; [|discriminate]. apply Nat.ltb_lt in E. intros H. injection H as <-. auto. Qed.

Lemma step_wf s o s' : cstr_wf s -> step_op zeroG zeroH c s o = Ok s' -> cstr_wf s'.
Proof.
  intros W H. destruct o as [X g h|x k]; simpl in H.
  - unfold update in H. inv_bind. injection H as <-. unfold cstr_wf. cbn [s_cstr s_active]. eapply cstr_pop_wf; eauto.
  - unfold update_one in H. inv_bind. injection H as <-. unfold cstr_wf. cbn [s_cstr s_active].
    match goal with E : put_row k (fst ?a) _ = Ok _, E' : put_row k (snd ?a) _ = Ok _ |- _ =>
      apply put_row_inv in E as (Hk & ->); apply put_row_inv in E' as (Hk' & ->) end.
    rewrite !set_row_length. destruct W as [Wl W]. split; auto. intros i C A HC HA. rewrite set_row_nth in HC. rewrite set_row_nth in HA.
    assert (Hka : (k <? List.length (s_cstr s))%nat = true) by (apply Nat.ltb_lt; auto).
    assert (Hka' : (k <? List.length (s_active s))%nat = true) by (apply Nat.ltb_lt; auto).
    rewrite Hka, andb_true_r in HC. rewrite Hka', andb_true_r in HA.
    destruct (i =? k)%nat; [|apply (W i); auto]. injection HC as <-. injection HA as <-.
    match goal with E : eval_cstr_one _ _ = Ok _ |- _ => unfold eval_cstr_one in E end. inv_bind.
    match goal with E : Ok _ = Ok _ |- _ => injection E as <- end. simpl.
    eexists. eexists. split; [eapply opt_one_len; eauto|]. split; [eapply opt_one_len; eauto|]. split; reflexivity.
Qed.
Lemma run_wf ops s s' : cstr_wf s -> run_ops zeroG zeroH c s ops = Ok s' -> cstr_wf s'.
Proof.
  revert s. induction ops as [|o ops IH]; intros s W H; simpl in H. injection H as <-. auto. inv_bind.
  apply (IH a); auto. apply (step_wf s o a); auto.
Qed.
Lemma init_wf : cstr_wf init.
Proof. split; auto. intros [|i]; simpl; discriminate. Qed.

Lemma is_active_true g : is_active g = true <-> - / 10000 <= g.
Proof. unfold is_active. destruct (Rle_dec _ _); split; intros; auto; try discriminate. Qed.
Lemma close0_true g : close0 g = true <-> Rabs g <= / 10000.
Proof. unfold close0. destruct (Rle_dec _ _); split; intros; auto; try discriminate. Qed.

Lemma feasible_rows s i C A : cstr_wf s -> nth_error (s_cstr s) i = Some C -> nth_error (s_active s) i = Some A ->
  List.length C = (c_neq c + c_nieq c)%nat /\ List.length A = (c_neq c + c_nieq c)%nat /\
  (forall j, (j < c_neq c)%nat -> nth_error A j = Some true) /\
  (forall j, (c_neq c <= j < c_neq c + c_nieq c)%nat -> (nth_error A j = Some true <-> - / 10000 <= nth j C 0)) /\
  exists b, nth_error (is_feasible c s) i = Some b /\
   (b = true <-> (forall j, (j < c_neq c)%nat -> Rabs (nth j C 0) <= / 10000) /\
                 (forall j, (c_neq c <= j < c_neq c + c_nieq c)%nat -> nth j C 0 < - / 10000)).
Proof.
  intros [Wl W] HC HA. destruct (W i C A HC HA) as (H & G & LH & LG & -> & ->).
  assert (Act : forall j, (c_neq c <= j < c_neq c + c_nieq c)%nat ->
     nth_error (repeat true (c_neq c) ++ map is_active G) j = Some (is_active (nth j (H ++ G) 0))).
  { intros j Hj. rewrite nth_error_app2 by (rewrite repeat_length; lia). rewrite repeat_length, app_nth2 by lia. rewrite LH.
    apply map_nth_error. rewrite (nth_error_nth' G 0) by lia. auto. }
  split; [rewrite app_length; lia|]. split; [rewrite app_length, repeat_length, map_length; lia|].
  split. { intros j Hj. rewrite nth_error_app1 by (rewrite repeat_length; auto).
    rewrite (nth_error_nth' _ true) by (rewrite repeat_length; auto). rewrite nth_repeat. auto. }
  split. { intros j Hj. rewrite Act by auto. rewrite <- is_active_true. split; congruence. }
  eexists. split.
  - unfold is_feasible. apply map_nth_error. instantiate (1 := (H ++ G, repeat true (c_neq c) ++ map is_active G)).
    clear Act W. revert i HC HA. generalize (s_active s), (s_cstr s). intros l1 l2. revert l1. induction l2 as [|a l2 IH]; intros [|b l1] [|i]; simpl; intros; try discriminate; try congruence. eauto.
  - cbn [fst snd]. rewrite firstn_app, firstn_all2, LH, Nat.sub_diag, app_nil_r by lia.
    rewrite skipn_app, skipn_all2, repeat_length, Nat.sub_diag by (rewrite repeat_length; lia). simpl (skipn 0 _). simpl ([] ++ _).
    rewrite andb_true_iff, forallb_forall, negb_true_iff. split.
    + intros [H1 H2]. split.
      * intros j Hj. rewrite app_nth1 by lia. apply close0_true, H1, nth_In. lia.
      * intros j Hj. rewrite app_nth2 by lia. rewrite LH. apply Rnot_le_lt. intros Hle.
        assert (existsb (fun b => b) (map is_active G) = true); [|congruence]. apply existsb_exists. exists true. split; auto.
        apply in_map_iff. exists (nth (j - c_neq c) G 0). split. apply is_active_true; auto. apply nth_In. lia.
    + intros [H1 H2]. split.
      * intros h Hh. apply close0_true. apply (In_nth _ _ 0) in Hh as (j & Hj & <-). specialize (H1 j). rewrite app_nth1 in H1 by lia. apply H1. lia.
      * apply not_true_is_false. intros He. apply existsb_exists in He as (b & Hb & ->). apply in_map_iff in Hb as (g & Hg & Hin).
        apply is_active_true in Hg. apply (In_nth _ _ 0) in Hin as (j & Hj & <-). specialize (H2 (c_neq c + j)%nat). rewrite app_nth2 in H2 by lia.
        rewrite LH in H2. replace (c_neq c + j - c_neq c)%nat with j in H2 by lia. assert (nth j G 0 < - / 10000) by (apply H2; lia). lra.
Qed.
End Counters.

Section More.
Context {TY TJ TG TH : Type}.
Lemma put_row_other {A} k (x : A) l r j : put_row k x l = Ok r -> j <> k -> nth_error r j = nth_error l j.
Proof.
  intros H Hj. apply put_row_inv in H as (_ & ->). rewrite set_row_nth. replace (j =? k)%nat with false; auto.
  symmetry. apply Nat.eqb_neq. auto.
Qed.
Lemma put_opt_other {A} e k (x : A) l r j : put_opt e k x l = Ok r -> j <> k ->
  option_map (fun l => nth_error l j) r = option_map (fun l => nth_error l j) l.
Proof.
  unfold put_opt. destruct l as [l|]; [|discriminate]. destruct (put_row k x l) eqn:E; simpl; [|discriminate]. intros H. injection H as <-. simpl.
  intros Hj. f_equal. eapply put_row_other; eauto.
Qed.
Lemma update_one_others (zeroG : TG) (zeroH : TH) (c : @config TY TJ TG TH) s s' x k j :
  update_one zeroG zeroH c s x k = Ok s' -> j <> k ->
  nth_error (s_X s') j = nth_error (s_X s) j /\ nth_error (s_Y s') j = nth_error (s_Y s) j /\
  option_map (fun l => nth_error l j) (s_J s') = option_map (fun l => nth_error l j) (s_J s) /\
  nth_error (s_cstr s') j = nth_error (s_cstr s) j /\ nth_error (s_active s') j = nth_error (s_active s) j /\
  nth_error (s_grad s') j = nth_error (s_grad s) j /\
  option_map (fun l => nth_error l j) (s_hess s') = option_map (fun l => nth_error l j) (s_hess s).
Proof.
  unfold update_one. intros H Hj.
  repeat match goal with
  | H : bind ?r _ = Ok _ |- _ => let E := fresh "E" in destruct r eqn:E; cbn [bind] in H; [|discriminate H]
  end. injection H as <-. cbn [s_X s_Y s_J s_cstr s_active s_grad s_hess].
  repeat split; (eapply put_row_other || eapply put_opt_other); eauto.
Qed.
Lemma getitem_counters (s a : @state TY TJ TG TH) ix : getitem s ix = Ok a ->
  n_jac a = n_jac s /\ n_cjac a = n_cjac s /\ n_chess a = n_chess s.
Proof.
  unfold getitem. intros H.
  repeat match goal with
  | H : bind ?r _ = Ok _ |- _ => let E := fresh "E" in destruct r eqn:E; cbn [bind] in H; [|discriminate H]
  end. injection H as <-. auto.
Qed.
End More.
