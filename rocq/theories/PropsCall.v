(** Property theorems: the calls of the constructors in the examples and scripts. *)
From Coq Require Import List Arith Lia String Bool.
From Verif Require Import Exn CallModel.
Import ListNotations.
Open Scope string_scope.

Lemma mem_iff x l : mem x l = true <-> In x l.
Proof.
  unfold mem. rewrite existsb_exists. split; [intros (y & Hy & E); apply String.eqb_eq in E; subst; auto|]. intros H. exists x. split; [auto|]. apply String.eqb_refl.
Qed.
Lemma mem_false x l : mem x l = false <-> ~ In x l.
Proof. rewrite <- mem_iff. destruct (mem x l); split; congruence. Qed.
Lemma existsb_false {A} (f : A -> bool) l : existsb f l = false <-> forall x, In x l -> f x = false.
Proof.
  split.
  - intros H x Hx. destruct (f x) eqn:E; auto. assert (existsb f l = true) by (apply existsb_exists; eauto). congruence.
  - intros H. destruct (existsb f l) eqn:E; auto. apply existsb_exists in E. destruct E as (x & Hx & Fx). rewrite (H x Hx) in Fx. discriminate.
Qed.
Lemma sources_nth npos kws ps : forall i j x, nth_error ps j = Some x -> nth_error (sources npos kws i ps) j = Some (x, source_of npos kws (i + j) x).
Proof.
  induction ps as [|y ps IH]; intros i [|j] x H; cbn [nth_error sources] in *; try discriminate.
  - injection H as ->. rewrite Nat.add_0_r. reflexivity.
  - rewrite (IH (S i) j x H). do 3 f_equal. lia.
Qed.
Lemma sources_length npos kws ps : forall i, List.length (sources npos kws i ps) = List.length ps.
Proof. induction ps as [|y ps IH]; intros i; cbn [sources List.length]; [reflexivity|]. rewrite IH. reflexivity. Qed.

(** the rules: a call is accepted exactly if there are not too many positional arguments, no parameter is given twice,
    no keyword is unknown (without [**kwargs]) and every parameter without default is given *)
Definition accepted (s : sig) (npos : nat) (kws : list string) : Prop :=
  let ps := (s_req s ++ s_opt s)%list in
  npos <= List.length ps /\ (forall k i, In k kws -> i < npos -> nth_error ps i <> Some k) /\
  (s_kw s = false -> forall k, In k kws -> In k ps) /\
  (forall i x, npos <= i -> nth_error (s_req s) i = Some x -> In x kws).

Lemma in_firstn_nth {A} n (l : list A) k : In k (firstn n l) <-> exists i, i < n /\ nth_error l i = Some k.
Proof.
  revert l. induction n as [|n IH]; intros l; [simpl; split; [intros []|intros (i & H & _); lia]|].
  destruct l as [|a l]; cbn [firstn In]; [split; [intros []|intros ([|i] & _ & H); discriminate]|]. rewrite IH. split.
  - intros [<-|(i & Hi & E)]; [exists 0; split; [lia|reflexivity]|exists (S i); split; [lia|exact E]].
  - intros ([|i] & Hi & E); [left; injection E; auto|right; exists i; split; [lia|exact E]].
Qed.
Lemma in_skipn_nth {A} n (l : list A) k : In k (skipn n l) <-> exists i, n <= i /\ nth_error l i = Some k.
Proof.
  revert l. induction n as [|n IH]; intros l.
  - cbn [skipn]. split; [intros H; apply In_nth_error in H; destruct H as (i & H); exists i; split; [lia|auto]|intros (i & _ & H); eapply nth_error_In; eauto].
  - destruct l as [|a l]; cbn [skipn]; [split; [intros []|intros ([|i] & _ & H); discriminate]|]. rewrite IH. split.
    + intros (i & Hi & E). exists (S i). split; [lia|exact E].
    + intros ([|i] & Hi & E); [lia|]. exists i. split; [lia|exact E].
Qed.

(** * C188 *)
Theorem C188_binding : forall s npos kws,
  (accepted s npos kws -> exists b, bind_call s npos kws = Ok b /\
     List.length (fst b) = List.length (s_req s ++ s_opt s) /\
     (forall i x, nth_error (s_req s ++ s_opt s) i = Some x -> exists src, nth_error (fst b) i = Some (x, src) /\
        (i < npos -> src = Positional i) /\ (npos <= i -> In x kws -> src = Keyword) /\ (npos <= i -> ~ In x kws -> src = Default)) /\
     (forall k, In k (snd b) <-> In k kws /\ ~ In k (s_req s ++ s_opt s))) /\
  (~ accepted s npos kws -> bind_call s npos kws = Exn TypeError).
Proof.
  intros s npos kws. unfold bind_call. set (ps := (s_req s ++ s_opt s)%list). set (ex := filter (fun k => negb (mem k ps)) kws).
  assert (EX : forall k, In k ex <-> In k kws /\ ~ In k ps).
  { intros k. unfold ex. rewrite filter_In, negb_true_iff, mem_false. reflexivity. }
  assert (D : (Nat.ltb (List.length ps) npos = false /\ existsb (fun k => mem k (firstn npos ps)) kws = false /\
               (negb (s_kw s) && negb (match ex with [] => true | _ => false end))%bool = false /\
               existsb (fun x => negb (mem x kws)) (skipn npos (s_req s)) = false) <-> accepted s npos kws).
  { unfold accepted. fold ps. rewrite Nat.ltb_ge, !existsb_false. split.
    - intros (A1 & A2 & A3 & A4). split; [auto|]. split; [|split].
      + intros k i Hk Hi E. specialize (A2 k Hk). rewrite mem_false, in_firstn_nth in A2. apply A2. eauto.
      + intros Ek k Hk. rewrite Ek in A3. cbn in A3. destruct ex as [|e ex'] eqn:Ee; [|discriminate]. apply mem_iff. destruct (mem k ps) eqn:M; auto. apply mem_false in M. destruct (proj2 (EX k) (conj Hk M)).
      + intros i x Hi E. specialize (A4 x). rewrite negb_false_iff, mem_iff in A4. apply A4, in_skipn_nth. eauto.
    - intros (A1 & A2 & A3 & A4). split; [auto|]. split; [|split].
      + intros k Hk. rewrite mem_false, in_firstn_nth. intros (i & Hi & E). exact (A2 k i Hk Hi E).
      + destruct (s_kw s); [reflexivity|]. destruct ex as [|e ex'] eqn:Ee; [reflexivity|]. exfalso. destruct (proj1 (EX e) (or_introl eq_refl)) as [K1 K2]. exact (K2 (A3 eq_refl e K1)).
      + intros x Hx. rewrite negb_false_iff, mem_iff. apply in_skipn_nth in Hx. destruct Hx as (i & Hi & E). eauto. }
  split.
  - intros Ha. destruct (proj2 D Ha) as (-> & -> & -> & ->). eexists. split; [reflexivity|]. cbn [fst snd]. split; [apply sources_length|]. split; [|exact EX].
    intros i x E. rewrite (sources_nth npos kws ps 0 i x E). eexists. split; [reflexivity|]. unfold source_of. rewrite Nat.add_0_l. split; [|split].
    + intros Hi. apply Nat.ltb_lt in Hi. rewrite Hi. reflexivity.
    + intros Hi Hx. apply Nat.ltb_ge in Hi. apply mem_iff in Hx. rewrite Hi, Hx. reflexivity.
    + intros Hi Hx. apply Nat.ltb_ge in Hi. apply mem_false in Hx. rewrite Hi, Hx. reflexivity.
  - intros Hn. destruct (Nat.ltb _ _); [reflexivity|]. destruct (existsb _ kws); [reflexivity|]. destruct (_ && _)%bool; [reflexivity|]. destruct (existsb _ (skipn _ _)); [reflexivity|]. exfalso. apply Hn, D. auto.
Qed.
Print Assumptions C188_binding.

(** the calls that raise TypeError before anything is computed; all others are accepted *)
Definition fails (s : sig) (c : call) : bool := match bind_call s (c_pos c) (c_kws c) with Ok _ => false | Exn _ => true end.
Definition at_ (c : call) : string * nat := (c_file c, c_line c).
Theorem C188_calls_refuted :
  map at_ (filter (fails sig_HVN) calls_HVN) = [("scripts/benchmark_HVN.py", 27)] /\
  map at_ (filter (fails sig_DpN) calls_DpN) = [("examples/DpN/2D_CF2.py", 58); ("examples/DpN/3D_EqDTLZ.py", 59); ("examples/DpN/MOP1_example.py", 76); ("examples/DpN/example_CONV3.py", 32); ("examples/DpN/example_DTLZ1.py", 42); ("examples/DpN/example_DTLZ7.py", 34); ("examples/DpN/example_ZDT1.py", 26); ("examples/DpN/example_ZDT3.py", 36); ("examples/DpN/example_ZDT6.py", 49); ("examples/MMD/example_ZDT.py", 81); ("scripts/benchmark_CF.py", 36); ("scripts/benchmark_CONV4.py", 44); ("scripts/benchmark_DTLZ.py", 62)] /\
  map at_ (filter (fails sig_MMD) calls_MMD) = [("examples/MMD/set_theta.py", 57); ("examples/MMD/set_theta.py", 48)].
Proof.
  repeat split; vm_compute; reflexivity.
Qed.
Print Assumptions C188_calls_refuted.
(** a failing call is not accepted whatever its arguments are, because of one keyword *)
Theorem C188_x0_refuted : forall npos kws, (In "X0" kws -> bind_call sig_DpN npos kws = Exn TypeError) /\ (In "x0" kws -> bind_call sig_HVN npos kws = Exn TypeError).
Proof.
  intros npos kws. split; intros H; apply C188_binding; intros (_ & _ & A & _); specialize (A eq_refl _ H); cbn in A; repeat (destruct A as [A|A]; [discriminate|]); destruct A.
Qed.
Print Assumptions C188_x0_refuted.
(** the calls of [MMDNewton] ([matching], where given, is [False]), including what is passed on to the indicator, are all accepted *)
Theorem C188_mmdnewton : forall c, In c calls_MMDNewton -> call_MMDNewton (negb (mem "matching" (c_kws c))) (c_pos c) (c_kws c) = Ok tt.
Proof.
  assert (H : forallb (fun c => match call_MMDNewton (negb (mem "matching" (c_kws c))) (c_pos c) (c_kws c) with Ok _ => true | Exn _ => false end) calls_MMDNewton = true) by (vm_compute; reflexivity).
  intros c Hc. rewrite forallb_forall in H. specialize (H c Hc). destruct (call_MMDNewton _ _ _) as [[]|]; [reflexivity|discriminate].
Qed.
Print Assumptions C188_mmdnewton.
Example C188_example : accepted sig_MMD 3 ["theta"] /\ ~ accepted sig_MMD 0 ["ref"; "theta"] /\ List.length calls_DpN = 32 /\ List.length calls_HVN = 37.
Proof.
  split; [|split; [|split; reflexivity]].
  - repeat split; cbn; try lia.
    + intros k i [<-|[]] Hi. destruct i as [|[|[|i]]]; cbn; try discriminate. lia.
    + intros _ k [<-|[]]. tauto.
    + intros i x Hi E. destruct i as [|[|[|[|i]]]]; cbn in E; try discriminate; lia.
  - intros (_ & _ & _ & A). specialize (A 0 "n_var" (le_n 0) eq_refl). cbn in A. destruct A as [A|[A|[]]]; discriminate.
Qed.
