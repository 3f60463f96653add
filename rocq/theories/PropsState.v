(** Property theorems: the State class (C20-C24, C60). *)
From Coq Require Import List Arith Bool Reals Lia Lra String.
From Verif Require Import Num Exn ListAux StateModel StateSpec StateProof StateKKT.
Import ListNotations.
Open Scope R_scope.

(** an example configuration: one variable, one objective, one inequality x - 2 <= 0 *)
Definition ex_cb {A} (f : list R -> A) : callback A := mkCb f None.
Definition ex_cbb {A} (f : list R -> A) : callback A := mkCb f (Some (map f)).
Definition ex_cfg : @config R R R R :=
  mkCfg 1 0 1 (ex_cb (fun x => nth 0 x 0 * nth 0 x 0)) (ex_cbb (fun x => 2 * nth 0 x 0))
    None None None (Some (ex_cb (fun x => [nth 0 x 0 - 2]))) (Some (ex_cbb (fun x => [1]))) None.
Lemma ex_rowwise : rowwise_all ex_cfg.
Proof. unfold rowwise_all, ex_cfg, rowwise_opt, rowwise, ex_cb, ex_cbb; simpl. repeat split; intros b E X; inversion E; auto. Qed.

(** * C20 *)
(** [update_one] after [update] does what [update] of the changed population does: the same
    data, or the same exception. *)
Theorem C20_update_one_is_update : forall TY TJ TG TH (zeroG : TG) (zeroH : TH) (c : @config TY TJ TG TH) s0 X s x k,
  rowwise_all c -> update zeroG zeroH c s0 X true true = Ok s -> (k < List.length X)%nat ->
  match update_one zeroG zeroH c s x k, update zeroG zeroH c s0 (set_row k x X) true true with
  | Ok a, Ok b => data a = data b
  | Exn e, Exn e' => e = e'
  | _, _ => False
  end.
Proof. intros. apply update_one_update; auto. Qed.
Print Assumptions C20_update_one_is_update.

(** no other row changes *)
Theorem C20_other_rows : forall TY TJ TG TH (zeroG : TG) (zeroH : TH) (c : @config TY TJ TG TH) s s' x k j,
  update_one zeroG zeroH c s x k = Ok s' -> j <> k ->
  nth_error (s_X s') j = nth_error (s_X s) j /\ nth_error (s_Y s') j = nth_error (s_Y s) j /\
  option_map (fun l => nth_error l j) (s_J s') = option_map (fun l => nth_error l j) (s_J s) /\
  nth_error (s_cstr s') j = nth_error (s_cstr s) j /\ nth_error (s_active s') j = nth_error (s_active s) j /\
  nth_error (s_grad s') j = nth_error (s_grad s) j /\
  option_map (fun l => nth_error l j) (s_hess s') = option_map (fun l => nth_error l j) (s_hess s).
Proof. exact @update_one_others. Qed.
Print Assumptions C20_other_rows.

Example C20_meets : exists s, update 0 0 ex_cfg init [[1]; [3]] true true = Ok s /\
  exists s', update_one 0 0 ex_cfg s [5] 1 = Ok s' /\ s_Y s' = [1 * 1; 5 * 5].
Proof. eexists. split; [reflexivity|]. eexists. split; reflexivity. Qed.

(** without a gradient [update_one] raises TypeError *)
Theorem C20_without_gradient_refuted : exists (c : @config R R R R) X s x k,
  rowwise_all c /\ update 0 0 c init X false true = Ok s /\ (k < List.length X)%nat /\ update_one 0 0 c s x k = Exn TypeError.
Proof.
  exists ex_cfg, [[1]; [3]]. eexists. exists [5], 1%nat. split; [apply ex_rowwise|]. split; [reflexivity|]. split; [simpl; lia|]. reflexivity.
Qed.
Print Assumptions C20_without_gradient_refuted.

(** * C21 *)
Theorem C21_counters : forall TY TJ TG TH (zeroG : TG) (zeroH : TH) (c : @config TY TJ TG TH) ops s,
  run_ops zeroG zeroH c init ops = Ok s ->
  n_jac s = list_sum (map jac_points ops) /\
  n_cjac s = match c_hjac c, c_gjac c with None, None => 0%nat | _, _ => list_sum (map points ops) end /\
  n_chess s = match c_hhess c, c_ghess c with None, None => 0%nat | _, _ => list_sum (map hess_points ops) end.
Proof.
  intros TY TJ TG TH zeroG zeroH c ops s H. apply run_counters in H as (H1 & H2 & H3). simpl in H1, H2, H3.
  unfold no_cjac in H2. unfold no_chess in H3. rewrite H1, H2, H3.
  split; auto. split; [destruct (c_hjac c), (c_gjac c)|destruct (c_hhess c), (c_ghess c)]; auto.
Qed.
Print Assumptions C21_counters.
Example C21_meets : exists s, run_ops 0 0 ex_cfg init [OpUpdate [[1]; [3]] true true; OpOne [5] 1; OpUpdate [[0]] false false] = Ok s /\
  n_jac s = 3%nat /\ n_cjac s = 4%nat /\ n_chess s = 0%nat.
Proof. eexists. split; [reflexivity|]. repeat split. Qed.

(** * C22 *)
Theorem C22_active_and_feasible : forall TY TJ TG TH (zeroG : TG) (zeroH : TH) (c : @config TY TJ TG TH) ops s i C A,
  run_ops zeroG zeroH c init ops = Ok s -> nth_error (s_cstr s) i = Some C -> nth_error (s_active s) i = Some A ->
  List.length C = (c_neq c + c_nieq c)%nat /\ List.length A = (c_neq c + c_nieq c)%nat /\
  (forall j, (j < c_neq c)%nat -> nth_error A j = Some true) /\
  (forall j, (c_neq c <= j < c_neq c + c_nieq c)%nat -> (nth_error A j = Some true <-> - / 10000 <= nth j C 0)) /\
  exists b, nth_error (is_feasible c s) i = Some b /\
   (b = true <-> (forall j, (j < c_neq c)%nat -> Rabs (nth j C 0) <= / 10000) /\
                 (forall j, (c_neq c <= j < c_neq c + c_nieq c)%nat -> nth j C 0 < - / 10000)).
Proof. intros. eapply feasible_rows; eauto. eapply run_wf; eauto. apply init_wf. Qed.
Print Assumptions C22_active_and_feasible.

(** a feasible point has exactly the equality constraints in its active set *)
Theorem C22_feasible_active_set : forall TY TJ TG TH (zeroG : TG) (zeroH : TH) (c : @config TY TJ TG TH) ops s i C A,
  run_ops zeroG zeroH c init ops = Ok s -> nth_error (s_cstr s) i = Some C -> nth_error (s_active s) i = Some A ->
  nth_error (is_feasible c s) i = Some true -> forall j, nth_error A j = Some true <-> (j < c_neq c)%nat.
Proof.
  intros TY TJ TG TH zeroG zeroH c ops s i C A H HC HA Hf j.
  destruct (C22_active_and_feasible _ _ _ _ _ _ _ _ _ _ _ _ H HC HA) as (_ & LA & H1 & H2 & b & Eb & Hb).
  assert (b = true) by congruence. apply Hb in H0 as [_ H0]. split; [|apply H1]. intros Hj.
  destruct (Nat.lt_ge_cases j (c_neq c)); auto. assert (j < List.length A)%nat by (apply nth_error_Some; congruence).
  apply H2 in Hj; [|lia]. specialize (H0 j ltac:(lia)). lra.
Qed.
Print Assumptions C22_feasible_active_set.
Example C22_meets : exists s, run_ops 0 0 ex_cfg init [OpUpdate [[1]; [3]] true true] = Ok s /\
  nth_error (s_cstr s) 0 = Some [1 - 2] /\ nth_error (s_active s) 0 = Some [is_active (1 - 2)] /\ nth_error (is_feasible ex_cfg s) 0 = Some true.
Proof.
  eexists. split; [reflexivity|]. split; [reflexivity|]. split; [reflexivity|].
  cbn [s_cstr s_active is_feasible combine map nth_error]. simpl. unfold is_active. destruct (Rle_dec _ _); auto; lra.
Qed.

(** * C23 *)
Section C23.
Open Scope string_scope.
(** every state made by the constructor and updates: the constructor's attributes, then
    assignments to attributes of [update] *)
Definition made_by {V} (vals : list V) (upd : list (string * V)) (d : dict V) : Prop :=
  List.length vals = List.length init_keys /\ (forall kv, In kv upd -> In (fst kv) update_keys) /\
  d = fold_left (fun d kv => setattr V (fst kv) (snd kv) d) upd (combine init_keys vals).

(** [save] never succeeds: it raises KeyError and leaves an empty file *)
Theorem C23_save_always_fails : forall V fs f vals upd (d : dict V), made_by vals upd d ->
  save V fs f d = (write V fs (f ++ ".pkl") (Empty V), Exn KeyError).
Proof.
  intros V fs f vals upd d (Hl & Hu & ->). apply save_fails. rewrite mem_sets.
  - assert (Hin : forall kv, In kv (combine init_keys vals) -> In (fst kv) init_keys) by (intros [a b] H; apply in_combine_l in H; auto).
    revert Hin. generalize (combine init_keys vals). intros l H. unfold mem. apply not_true_is_false. intros He.
    apply existsb_exists in He as (kv & Hin & E). apply String.eqb_eq in E. apply H in Hin. rewrite <- E in Hin. simpl in Hin.
    repeat (destruct Hin as [Hin|Hin]; [discriminate|]). auto.
  - intros kv Hkv E. apply Hu in Hkv. rewrite E in Hkv. simpl in Hkv. repeat (destruct Hkv as [Hkv|Hkv]; [discriminate|]). auto.
Qed.

Theorem C23_save_load_refuted : exists (fs : files nat) f vals upd d, made_by vals upd d /\
  snd (save nat fs f d) = Exn KeyError /\ load nat (fst (save nat fs f d)) (f ++ ".pkl") = Exn EOFError.
Proof.
  exists (fun _ => None), "s", (repeat 0%nat 16), [("X", 1%nat)]. eexists.
  assert (M : made_by (repeat 0%nat 16) [("X", 1%nat)] (fold_left (fun d kv => setattr nat (fst kv) (snd kv) d) [("X", 1%nat)] (combine init_keys (repeat 0%nat 16)))).
  { split; [reflexivity|]. split; [|reflexivity]. intros kv [<-|[]]. simpl; auto. }
  split; [exact M|]. rewrite (C23_save_always_fails _ _ _ _ _ _ M). split; reflexivity.
Qed.

(** [load] looks for the name without the extension [save] appends *)
Theorem C23_load_name_refuted : exists f (fs : files nat) d,
  load nat (write nat fs (f ++ ".pkl") (Pickle nat d)) f = Exn FileNotFoundError.
Proof. exists "s", (fun _ => None), []. reflexivity. Qed.

(** what remains true: a pickled dictionary is read back from a file given by its full name *)
Theorem C23_load_partial : forall V fs f (d : dict V), load V (write V fs f (Pickle V d)) f = Ok d.
Proof. intros. unfold load, write. rewrite String.eqb_refl. reflexivity. Qed.
End C23.
Print Assumptions C23_save_always_fails.
Print Assumptions C23_save_load_refuted.
Print Assumptions C23_load_name_refuted.
Print Assumptions C23_load_partial.
Example C23_meets : made_by (repeat 0%nat 16) [] (combine init_keys (repeat 0%nat 16)).
Proof. split; [reflexivity|]. split; [|reflexivity]. intros kv []. Qed.

(** * C24 *)
Theorem C24_slice_commutes : forall TY TJ TG TH (zeroG : TG) (zeroH : TH) (c : @config TY TJ TG TH) s0 s1 X s ix X',
  rowwise_all c -> update zeroG zeroH c s0 X true true = Ok s -> ix <> [] -> map (nth_error X) ix = map Some X' ->
  exists a b, getitem s ix = Ok a /\ update zeroG zeroH c s1 X' true true = Ok b /\ data a = data b.
Proof. intros. eapply getitem_update; eauto. apply take_rows_ok. auto. Qed.
Print Assumptions C24_slice_commutes.
(** the counters of a slice are those of the whole *)
Theorem C24_slice_counters : forall TY TJ TG TH (s a : @state TY TJ TG TH) ix, getitem s ix = Ok a ->
  n_jac a = n_jac s /\ n_cjac a = n_cjac s /\ n_chess a = n_chess s.
Proof. exact @getitem_counters. Qed.
Print Assumptions C24_slice_counters.
Example C24_meets : exists s a, update 0 0 ex_cfg init [[1]; [3]; [4]] true true = Ok s /\ getitem s [2; 0; 2]%nat = Ok a /\
  s_X a = [[4]; [1]; [4]].
Proof. eexists. eexists. split; [reflexivity|]. split; reflexivity. Qed.

(** * C60 *)
(** [check_KKT] reports a point iff the approximate first-order conditions hold there,
    given that the solver's answer to the program it is asked is right. *)
Theorem C60_check_KKT : forall linprog n_var n_eq n_ieq stol ftol atol J C D bs i Ji Ci Di,
  check_KKT linprog n_var n_eq n_ieq stol ftol atol (Some J) C D = Ok bs ->
  nth_error J i = Some Ji -> nth_error C i = Some Ci -> nth_error D i = Some Di ->
  List.length Ci = (n_eq + n_ieq)%nat ->
  (n_eq + n_ieq = 0 -> Di = [])%nat ->
  (let G := skipn n_eq Ci in
   let p := kkt_lp n_var Ji (firstn n_eq Di) (select (map (fun g => geb g (- atol)) G) (skipn n_eq Di)) in lp_answer p (linprog p)) ->
  exists b, nth_error bs i = Some b /\
   (b = true <-> approx_kkt n_var stol ftol atol Ji (firstn n_eq Ci) (skipn n_eq Ci) (firstn n_eq Di) (skipn n_eq Di)).
Proof. exact check_KKT_spec. Qed.
Print Assumptions C60_check_KKT.
Theorem C60_errors : forall linprog n_var n_eq n_ieq stol ftol atol J C D,
  (stol < 0 \/ ftol < 0 \/ atol < 0 -> check_KKT linprog n_var n_eq n_ieq stol ftol atol J C D = Exn ValueError) /\
  (0 <= stol -> 0 <= ftol -> 0 <= atol -> check_KKT linprog n_var n_eq n_ieq stol ftol atol None C D = Exn RuntimeError) /\
  (0 <= stol -> 0 <= ftol -> 0 <= atol -> (0 < n_eq + n_ieq)%nat -> In [] D ->
     check_KKT linprog n_var n_eq n_ieq stol ftol atol J C D = Exn RuntimeError).
Proof. exact check_KKT_errors. Qed.
Print Assumptions C60_errors.
(** f = (x, -x) has stationary points everywhere: w = (1/2, 1/2) *)
Example C60_meets : let p := kkt_lp 1 [[1]; [-1]] [] [] in let answer := Some [/ 2; / 2; 0] in
  lp_answer p answer /\ check_KKT (fun _ => answer) 1 0 0 (/ 10000) (/ 10000) (/ 10000) (Some [[[1]; [-1]]]) [[]] [[]] = Ok [true].
Proof. exact kkt_example. Qed.
