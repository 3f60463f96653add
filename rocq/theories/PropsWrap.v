(** Property theorems: problems of pymoo as problems of this package and back. *)
From Coq Require Import String List Arith Bool Reals ZArith Lia Lra.
From Verif Require Import Num Exn ListAux NewtonModel ProbModel RefModel RefProof WrapModel WrapSpec.
Import ListNotations.
Open Scope R_scope.

Lemma lookup_head {A} k (v : A) d : lookup k ((k, v) :: d) = Ok v.
Proof. cbn. rewrite String.eqb_refl. auto. Qed.
Lemma evaluate_key_value p key x v : py_elementwise p = false -> pymoo_value p key x v -> evaluate_key p key x = Ok v.
Proof.
  intros He (r & out & m & E & L & ->). rewrite He in E. unfold evaluate_key. rewrite E. cbn [bind]. destruct r as [r|].
  - destruct out as [|kv out]; [discriminate|]. rewrite L. auto.
  - rewrite L. auto.
Qed.

(** * C103 *)
(** the adapter reports the data of the problem *)
Theorem C103_data : forall m, exists p, adapter (OMop m) = Ok p /\ py_nvar p = nat_nvar m /\ py_nobj p = nat_nobj m /\
  py_xl p = nat_xl m /\ py_xu p = nat_xu m /\ py_neq p = n_eq m /\ py_nieq p = n_ieq m /\ py_elementwise p = false.
Proof. intros m. eexists. split; [reflexivity|]. cbn. auto 10. Qed.
Print Assumptions C103_data.
Theorem C103_type_error : forall o, (forall m, o <> OMop m) -> adapter o = Exn TypeError.
Proof. intros [m|p|] H; auto. exfalso. apply (H m). auto. Qed.
Print Assumptions C103_type_error.
(** one row per point, and "H" and "G" exactly if there are such constraints *)
Definition rows_of (f : list R -> res (list R)) (X : list (list R)) (V : list (list R)) : Prop := map f X = map Ok V.
Theorem C103_evaluate : forall m p X r out, adapter (OMop m) = Ok p -> py_eval p (Mat X) = Ok (r, out) -> r = None /\
  (exists F, lookup "F" out = Ok F /\ rows_of (nat_objective m) X F) /\
  (if (0 <? n_eq m)%Z then exists H, lookup "H" out = Ok H /\ rows_of (eq_values m) X H else lookup "H" out = Exn KeyError) /\
  (if (0 <? n_ieq m)%Z then exists G, lookup "G" out = Ok G /\ rows_of (ieq_values m) X G else lookup "G" out = Exn KeyError).
Proof.
  intros m p X r out E EV. injection E as <-. cbn [py_eval] in EV. unfold adapter_eval in EV.
  destruct (mapM (nat_objective m) X) as [F|] eqn:EF; [|discriminate]. cbn [bind] in EV. apply mapM_ok in EF.
  destruct (0 <? n_eq m)%Z.
  - destruct (mapM (eq_values m) X) as [H|] eqn:EH; [|discriminate]. cbn [bind] in EV. apply mapM_ok in EH. destruct (0 <? n_ieq m)%Z.
    + destruct (mapM (ieq_values m) X) as [G|] eqn:EG; [|discriminate]. cbn [bind] in EV. apply mapM_ok in EG. injection EV as <- <-. cbn. unfold rows_of. eauto 10.
    + cbn [bind] in EV. injection EV as <- <-. cbn. unfold rows_of. eauto 10.
  - cbn [bind] in EV. destruct (0 <? n_ieq m)%Z.
    + destruct (mapM (ieq_values m) X) as [G|] eqn:EG; [|discriminate]. cbn [bind] in EV. apply mapM_ok in EG. injection EV as <- <-. cbn. unfold rows_of. eauto 10.
    + cbn [bind] in EV. injection EV as <- <-. cbn. unfold rows_of. eauto 10.
Qed.
Print Assumptions C103_evaluate.
(** it evaluates whenever the problem does *)
Theorem C103_total : forall m p X, adapter (OMop m) = Ok p ->
  (forall x, In x X -> (exists f, nat_objective m x = Ok f) /\ ((0 < n_eq m)%Z -> exists h, eq_values m x = Ok h) /\ ((0 < n_ieq m)%Z -> exists g, ieq_values m x = Ok g)) ->
  exists out, py_eval p (Mat X) = Ok (None, out).
Proof.
  intros m p X E H. injection E as <-. cbn [py_eval]. unfold adapter_eval.
  destruct (mapM_total (nat_objective m) X) as (F & ->). { intros x Hx. apply H; auto. }
  cbn [bind].
  assert (HH : exists d, (if (0 <? n_eq m)%Z then do h <- mapM (eq_values m) X; Ok [("H"%string, h)] else Ok []) = Ok d).
  { destruct (0 <? n_eq m)%Z eqn:Ez; [|eauto]. apply Z.ltb_lt in Ez. destruct (mapM_total (eq_values m) X) as (h & ->). intros x Hx. apply H; auto. cbn [bind]. eauto. }
  destruct HH as (d & ->). cbn [bind].
  assert (HG : exists d, (if (0 <? n_ieq m)%Z then do h <- mapM (ieq_values m) X; Ok [("G"%string, h)] else Ok []) = Ok d).
  { destruct (0 <? n_ieq m)%Z eqn:Ez; [|eauto]. apply Z.ltb_lt in Ez. destruct (mapM_total (ieq_values m) X) as (h & ->). intros x Hx. apply H; auto. cbn [bind]. eauto. }
  destruct HG as (d' & ->). cbn [bind]. eauto.
Qed.
Print Assumptions C103_total.
(** the feasible sets agree, where the problem can be evaluated *)
Definition evaluates (m : native) (x : list R) : Prop :=
  (exists f, nat_objective m x = Ok f) /\ ((0 < n_eq m)%Z -> exists h, eq_values m x = Ok h) /\ ((0 < n_ieq m)%Z -> exists g, ieq_values m x = Ok g).
Theorem C103_feasible : forall m p x, adapter (OMop m) = Ok p -> evaluates m x -> py_feasible p x <-> nat_feasible m x.
Proof.
  intros m p x E Hx. destruct (C103_total m p [x] E) as (out & EV). { intros y [<-|[]]. exact Hx. }
  destruct (C103_evaluate m p [x] None out E EV) as (_ & _ & HH & HG). pose proof E as E2. injection E2 as <-.
  assert (V : forall key v, pymoo_value (mkPy (nat_nvar m) (nat_nobj m) (nat_xl m) (nat_xu m) (n_eq m) (n_ieq m) false (adapter_eval m) (Exn TypeError)) key x v <-> exists M, lookup key out = Ok M /\ v = concat M).
  { intros key v. unfold pymoo_value. cbn [py_elementwise]. cbn [py_eval] in *. rewrite EV. split.
    - intros (r & o & M & E1 & E2 & E3). injection E1 as <- <-. eauto.
    - intros (M & E1 & E2). exists None, out, M. auto. }
  unfold py_feasible, nat_feasible. cbn [py_nieq py_neq].
  assert (One : forall f V, rows_of f [x] V -> exists v, V = [v] /\ f x = Ok v /\ concat V = v).
  { intros f W HW. unfold rows_of in HW. destruct W as [|v [|]]; try discriminate. exists v. split; auto. injection HW as HW. split; auto. simpl. apply app_nil_r. }
  split; intros [A B]; split; intros Hp.
  - rewrite (proj2 (Z.ltb_lt _ _) Hp) in HG. destruct HG as (G & LG & RG). destruct (One _ _ RG) as (v & -> & Ev & Cv). destruct (A Hp) as (g & Hg & Ng). apply V in Hg. destruct Hg as (M & LM & ->).
    rewrite LG in LM. injection LM as <-. exists v. split; auto. rewrite <- Cv. auto.
  - rewrite (proj2 (Z.ltb_lt _ _) Hp) in HH. destruct HH as (G & LG & RG). destruct (One _ _ RG) as (v & -> & Ev & Cv). destruct (B Hp) as (g & Hg & Ng). apply V in Hg. destruct Hg as (M & LM & ->).
    rewrite LG in LM. injection LM as <-. exists v. split; auto. rewrite <- Cv. auto.
  - rewrite (proj2 (Z.ltb_lt _ _) Hp) in HG. destruct HG as (G & LG & RG). destruct (One _ _ RG) as (v & -> & Ev & Cv). destruct (A Hp) as (g & Hg & Ng). exists v. split. apply V. exists [v]. auto. congruence.
  - rewrite (proj2 (Z.ltb_lt _ _) Hp) in HH. destruct HH as (G & LG & RG). destruct (One _ _ RG) as (v & -> & Ev & Cv). destruct (B Hp) as (g & Hg & Ng). exists v. split. apply V. exists [v]. auto. congruence.
Qed.
Print Assumptions C103_feasible.
Definition ex_native : native := mkNative 1 1 [0] [2] (fun x => Ok [nth 0 x 0]) (Some (mkCMOP 0 1 None (Some (fun x => Ok [1 - nth 0 x 0])))).
Example C103_meets : evaluates ex_native [/ 2] /\ nat_feasible ex_native [1] /\ ~ nat_feasible ex_native [/ 2] /\
  exists p, adapter (OMop ex_native) = Ok p /\ py_eval p (Mat [[1]; [2]]) = Ok (None, [("F"%string, [[1]; [2]]); ("G"%string, [[1 - 1]; [1 - 2]])]).
Proof.
  split. { split; [cbn; eauto|]. split; intros H; cbn in *; [lia|eauto]. }
  split. { split; intros H; cbn in *; [|lia]. eexists. split; [reflexivity|]. constructor; [lra|constructor]. }
  split. { intros [H _]. cbn in H. destruct (H ltac:(lia)) as (g & E & Hg). injection E as <-. inversion Hg; subst. lra. }
  eexists. split; reflexivity.
Qed.

(** * C104 *)
Definition traces (p : pymoo) (key : string) : Prop := trace_key p key = Ok tt.
(** a problem is accepted exactly if its counts are not negative and all outputs it declares can be traced *)
Theorem C104_accepted : forall p b, (exists m, from_pymoo (OPymoo p) b = Ok m) <->
  (0 <= py_neq p)%Z /\ (0 <= py_nieq p)%Z /\ traces p "F" /\ ((0 < py_nieq p)%Z -> traces p "G") /\ ((0 < py_neq p)%Z -> traces p "H").
Proof.
  intros p b. cbn [from_pymoo]. unfold backed, new_cmop.
  assert (T : forall key, traced p key = Ok tt <-> traces p key). { intros key. unfold traced, traces. destruct (trace_key p key) as [[]|]; split; congruence. }
  assert (T2 : forall key, traced p key = Ok tt \/ traced p key = Exn TypeError). { intros key. unfold traced. destruct (trace_key p key); auto. }
  destruct ((py_neq p <? 0)%Z || (py_nieq p <? 0)%Z) eqn:En.
  - split; [intros (m & E); discriminate|]. intros (H1 & H2 & _). apply orb_true_iff in En. destruct En as [En|En]; apply Z.ltb_lt in En; lia.
  - apply orb_false_iff in En. destruct En as [E1 E2]. apply Z.ltb_ge in E1, E2. cbn [bind].
    destruct (T2 "F"%string) as [F|F]; rewrite F. 2:{ split; [intros (m & E); discriminate|]. intros (_ & _ & H & _). apply T in H. congruence. }
    apply T in F. cbn [bind]. destruct (0 <? py_nieq p)%Z eqn:Ei.
    + apply Z.ltb_lt in Ei. destruct (T2 "G"%string) as [G|G]; rewrite G. 2:{ split; [intros (m & E); discriminate|]. intros (_ & _ & _ & H & _). apply H, T in Ei. congruence. }
      apply T in G. cbn [bind]. destruct (0 <? py_neq p)%Z eqn:Ee.
      * apply Z.ltb_lt in Ee. destruct (T2 "H"%string) as [H|H]; rewrite H. 2:{ split; [intros (m & E); discriminate|]. intros (_ & _ & _ & _ & H'). apply H', T in Ee. congruence. }
        apply T in H. cbn [bind]. split; [intros _; auto|]. intros _. eauto.
      * apply Z.ltb_ge in Ee. cbn [bind]. split; [intros _; repeat (split; auto); lia|]. eauto.
    + apply Z.ltb_ge in Ei. cbn [bind]. destruct (0 <? py_neq p)%Z eqn:Ee.
      * apply Z.ltb_lt in Ee. destruct (T2 "H"%string) as [H|H]; rewrite H. 2:{ split; [intros (m & E); discriminate|]. intros (_ & _ & _ & _ & H'). apply H', T in Ee. congruence. }
        apply T in H. cbn [bind]. split; [intros _; repeat (split; auto); lia|]. eauto.
      * apply Z.ltb_ge in Ee. cbn [bind]. split; [intros _; repeat (split; auto); lia|]. eauto.
Qed.
Print Assumptions C104_accepted.
Lemma backed_inv p b m : backed p b = Ok m -> (0 <= py_neq p)%Z /\ (0 <= py_nieq p)%Z /\
  exists c, new_cmop (py_nvar p) (py_xl p) (py_xu p) (py_neq p) (py_nieq p) b (evaluate_key p "H") (evaluate_key p "G") = Ok c /\
  m = mkNative (py_nvar p) (py_nobj p) (py_xl p) (py_xu p) (evaluate_key p "F") (Some c).
Proof.
  intros E. pose proof (proj1 (C104_accepted p b) (ex_intro _ m E)) as (H1 & H2 & _). split; auto. split; auto. unfold backed in E.
  destruct (new_cmop _ _ _ _ _ _ _ _) as [c|]; [|discriminate]. cbn [bind] in E. exists c. split; auto.
  destruct (traced p "F"); [|discriminate]. cbn [bind] in E.
  destruct (if (0 <? py_nieq p)%Z then traced p "G" else Ok tt); [|discriminate]. cbn [bind] in E.
  destruct (if (0 <? py_neq p)%Z then traced p "H" else Ok tt); [|discriminate]. cbn [bind] in E. congruence.
Qed.
(** the objectives, the counts and the feasible set of a vectorised problem; with boundary
    constraints the box becomes part of the inequality constraints *)
Theorem C104_values : forall p b m x v, from_pymoo (OPymoo p) b = Ok m -> py_elementwise p = false -> pymoo_value p "F" x v -> nat_objective m x = Ok v.
Proof.
  intros p b m x v E He Hv. destruct (backed_inv p b m E) as (_ & _ & c & _ & ->). cbn [nat_objective]. apply evaluate_key_value; auto.
Qed.
Print Assumptions C104_values.
(** no constraint values are made up: what is returned is what the problem stored under the key.
    Only the objectives may also be returned by [_evaluate] *)
Theorem C104_only_values : forall p b m x, from_pymoo (OPymoo p) b = Ok m -> py_elementwise p = false ->
  (forall v, eq_values m x = Ok v -> pymoo_value p "H" x v) /\
  (b = false -> forall v, ieq_values m x = Ok v -> pymoo_value p "G" x v) /\
  (forall v, nat_objective m x = Ok v -> pymoo_value p "F" x v \/ exists F, py_eval p (Mat [x]) = Ok (Some F, []) /\ v = concat F).
Proof.
  intros p b m x E He. destruct (backed_inv p b m E) as (_ & _ & c & Ec & ->). unfold new_cmop in Ec. destruct (_ || _); [discriminate|]. injection Ec as <-.
  assert (V : forall key v, evaluate_key p key x = Ok v -> pymoo_value p key x v \/ key = "F"%string /\ exists F, py_eval p (Mat [x]) = Ok (Some F, []) /\ v = concat F).
  { intros key v Hv. unfold evaluate_key in Hv. destruct (py_eval p (Mat [x])) as [[r out]|] eqn:EV; [|discriminate]. cbn [bind] in Hv.
    assert (L : (exists M, lookup key out = Ok M /\ v = concat M) -> pymoo_value p key x v).
    { intros (M & LM & ->). exists r, out, M. rewrite He. auto. }
    assert (D : (do m0 <- lookup key out; Ok (concat m0)) = Ok v -> pymoo_value p key x v).
    { intros D. apply L. destruct (lookup key out) as [M|]; [|discriminate]. injection D as <-. eauto. }
    destruct r as [F|]; [|auto]. destruct out as [|kv out]; [|auto].
    destruct (String.eqb_spec key "F"); [|discriminate]. injection Hv as <-. right. eauto. }
  unfold eq_values, ieq_values, eq_constraint, ieq_constraint, call. cbn [nat_cstr nat_objective]. split; [|split].
  - intros v Hv. assert (Hv' : evaluate_key p "H" x = Ok v) by (destruct b; cbn [c_eq] in Hv; destruct (0 <? py_neq p)%Z; congruence).
    apply V in Hv'. destruct Hv' as [H|(H & _)]; [auto|discriminate].
  - intros -> v Hv. assert (Hv' : evaluate_key p "G" x = Ok v) by (cbn [c_ieq] in Hv; destruct (0 <? py_nieq p)%Z; congruence).
    apply V in Hv'. destruct Hv' as [H|(H & _)]; [auto|discriminate].
  - intros v Hv. apply V in Hv. tauto.
Qed.
Print Assumptions C104_only_values.
Theorem C104_counts : forall p b m, from_pymoo (OPymoo p) b = Ok m -> nat_nvar m = py_nvar p /\ nat_nobj m = py_nobj p /\ nat_xl m = py_xl p /\ nat_xu m = py_xu p /\
  n_eq m = py_neq p /\ n_ieq m = (py_nieq p + if b then 2 * Z.of_nat (py_nvar p) else 0)%Z.
Proof.
  intros p b m E. destruct (backed_inv p b m E) as (H1 & H2 & c & Ec & ->). unfold new_cmop in Ec. destruct (_ || _); [discriminate|]. injection Ec as <-.
  cbn. unfold n_eq, n_ieq. cbn [nat_cstr]. destruct b; cbn [c_neq c_nieq]; repeat split; lia.
Qed.
Print Assumptions C104_counts.
Lemma sub_nonpositive a : forall b, List.length a = List.length b -> nonpositive (map (fun p => fst p - snd p) (combine a b)) <-> Forall2 Rle a b.
Proof.
  induction a as [|x a IH]; intros [|y b] H; try discriminate; simpl.
  - split; constructor.
  - injection H as H. split; intros K; inversion K; subst; constructor; try lra; apply (IH b H); auto.
Qed.
Lemma vsub_ok a b : List.length a = List.length b -> vsub a b = Ok (map (fun p => fst p - snd p) (combine a b)).
Proof. intros H. unfold vsub. rewrite (proj2 (Nat.eqb_eq _ _) H). auto. Qed.
Theorem C104_feasible : forall p b m x, from_pymoo (OPymoo p) b = Ok m -> py_elementwise p = false ->
  (0 < py_nvar p)%nat -> List.length (py_xl p) = py_nvar p -> List.length (py_xu p) = py_nvar p -> List.length x = py_nvar p ->
  ((0 < py_nieq p)%Z -> exists g, pymoo_value p "G" x g) -> ((0 < py_neq p)%Z -> exists h, pymoo_value p "H" x h) ->
  nat_feasible m x <-> (py_feasible p x /\ (b = true -> in_box (py_xl p) (py_xu p) x)).
Proof.
  intros p b m x E He Hn L1 L2 L3 HG HH. destruct (backed_inv p b m E) as (H1 & H2 & c & Ec & ->). unfold new_cmop in Ec. destruct (_ || _); [discriminate|]. injection Ec as <-.
  assert (VG : forall g, pymoo_value p "G" x g -> evaluate_key p "G" x = Ok g) by (intros; apply evaluate_key_value; auto).
  assert (VH : forall g, pymoo_value p "H" x g -> evaluate_key p "H" x = Ok g) by (intros; apply evaluate_key_value; auto).
  unfold nat_feasible, n_ieq, n_eq, ieq_values, eq_values, ieq_constraint, eq_constraint, call. cbn [nat_cstr]. unfold py_feasible.
  assert (QE : ((0 < py_neq p)%Z -> exists h, (match (if (0 <? py_neq p)%Z then Some (evaluate_key p "H") else None) with Some g => g x | None => Exn TypeError end) = Ok h /\ zero h) <->
    ((0 < py_neq p)%Z -> exists h, pymoo_value p "H" x h /\ zero h)).
  { destruct (0 <? py_neq p)%Z eqn:Ee.
    - apply Z.ltb_lt in Ee. destruct (HH Ee) as (h & Vh). rewrite (VH _ Vh). split; intros K _; destruct (K Ee) as (h' & A & B).
      + injection A as <-. eauto.
      + exists h'. split; auto. apply VH in A. rewrite (VH _ Vh) in A. auto.
    - apply Z.ltb_ge in Ee. split; intros; lia. }
  destruct b; cbn [c_neq c_nieq c_eq c_ieq].
  - unfold add_boundary_constraints. rewrite !vsub_ok by congruence. cbn [bind].
    assert (BX : nonpositive (map (fun p0 => fst p0 - snd p0) (combine (py_xl p) x) ++ map (fun p0 => fst p0 - snd p0) (combine x (py_xu p))) <-> in_box (py_xl p) (py_xu p) x).
    { unfold nonpositive, in_box. rewrite Forall_app. rewrite <- !sub_nonpositive by congruence. reflexivity. }
    assert (POS : (0 < py_nieq p + 2 * Z.of_nat (py_nvar p))%Z) by lia.
    rewrite QE. destruct (0 <? py_nieq p)%Z eqn:Ei.
    + apply Z.ltb_lt in Ei. destruct (HG Ei) as (g & Vg). rewrite (VG _ Vg). cbn [bind]. split.
      * intros [A B]. destruct (A POS) as (g' & Eg & Ng). injection Eg as <-. unfold nonpositive in Ng. apply Forall_app in Ng. destruct Ng as [N1 N2]. split; [|intros _; apply BX; auto].
        split; auto. intros _. eauto.
      * intros [[A B] C]. destruct (A Ei) as (g' & Vg' & Ng). apply VG in Vg'. rewrite (VG _ Vg) in Vg'. injection Vg' as <-. split; auto. intros _. eexists. split; [reflexivity|]. apply Forall_app. split; auto. apply BX. auto.
    + apply Z.ltb_ge in Ei. split.
      * intros [A B]. destruct (A POS) as (g' & Eg & Ng). injection Eg as <-. split; [|intros _; apply BX; auto]. split; auto. intros; lia.
      * intros [[A B] C]. split; auto. intros _. eexists. split; [reflexivity|]. apply BX. auto.
  - rewrite QE. destruct (0 <? py_nieq p)%Z eqn:Ei.
    + apply Z.ltb_lt in Ei. destruct (HG Ei) as (g & Vg). rewrite (VG _ Vg). split.
      * intros [A B]. split; [|discriminate]. split; auto. intros _. destruct (A Ei) as (g' & Eg & Ng). injection Eg as <-. eauto.
      * intros [[A B] _]. split; auto. intros _. destruct (A Ei) as (g' & Vg' & Ng). apply VG in Vg'. rewrite (VG _ Vg) in Vg'. injection Vg' as <-. eauto.
    + apply Z.ltb_ge in Ei. split; [intros [A B]; split; [|discriminate]|intros [[A B] _]]; split; auto; intros; lia.
Qed.
Print Assumptions C104_feasible.
(** an elementwise problem gets a matrix where it expects a vector: [out["F"] = x[0] ** 2] with one
    objective and two variables is accepted and evaluates to two numbers *)
Definition ex_elementwise : pymoo := mkPy 2 1 [0; 0] [1; 1] 0 0 true
  (fun t => Ok (None, [("F"%string, [match t with Vec x => [nth 0 x 0 * nth 0 x 0] | Mat X => map (fun a => a * a) (nth 0 X []) end])])) (Ok (false, ["F"%string])).
Theorem C104_elementwise_refuted : exists p m x v, from_pymoo (OPymoo p) true = Ok m /\ pymoo_value p "F" x v /\ List.length v = py_nobj p /\
  exists w, nat_objective m x = Ok w /\ List.length w <> nat_nobj m.
Proof.
  exists ex_elementwise. eexists. exists [3; 4], [3 * 3]. split; [reflexivity|]. split.
  - exists None. eexists. eexists. split; [reflexivity|]. split; [reflexivity|]. reflexivity.
  - split; [reflexivity|]. exists [3 * 3; 4 * 4]. split; [reflexivity|]. cbn. discriminate.
Qed.
Print Assumptions C104_elementwise_refuted.
Definition ex_pymoo : pymoo := mkPy 1 1 [0] [2] 0 1 false
  (fun t => match t with Mat X => Ok (None, [("F"%string, X); ("G"%string, map (fun x => [1 - nth 0 x 0]) X)]) | Vec _ => Exn IndexError end) (Ok (false, ["F"; "G"]%string)).
Example C104_meets : (exists m, from_pymoo (OPymoo ex_pymoo) true = Ok m) /\ py_elementwise ex_pymoo = false /\ pymoo_value ex_pymoo "F" [1] [1] /\ pymoo_value ex_pymoo "G" [1] [1 - 1] /\ py_feasible ex_pymoo [1].
Proof.
  split; [eexists; reflexivity|]. split; [reflexivity|]. split; [exists None; eexists; exists [[1]]; split; [reflexivity|]; split; reflexivity|].
  split; [exists None; eexists; exists [[1 - 1]]; split; [reflexivity|]; split; reflexivity|].
  split; cbn; intros H; [|lia]. exists [1 - 1]. split. exists None. eexists. exists [[1 - 1]]. split; [reflexivity|]; split; reflexivity. constructor; [lra|constructor].
Qed.

(** * C105 *)
(** problems of this package are returned as they are *)
Theorem C105_same : forall m b, from_pymoo (OMop m) b = Ok m.
Proof. auto. Qed.
Print Assumptions C105_same.
(** from pymoo and back: the same objectives, and the same feasible points of the box; the bounds have become constraints *)
Theorem C105_and_back : forall p b m p' x, from_pymoo (OPymoo p) b = Ok m -> adapter (OMop m) = Ok p' -> py_elementwise p = false ->
  (0 < py_nvar p)%nat -> List.length (py_xl p) = py_nvar p -> List.length (py_xu p) = py_nvar p -> List.length x = py_nvar p ->
  (exists v, pymoo_value p "F" x v) -> ((0 < py_nieq p)%Z -> exists g, pymoo_value p "G" x g) -> ((0 < py_neq p)%Z -> exists h, pymoo_value p "H" x h) ->
  py_nvar p' = py_nvar p /\ py_nobj p' = py_nobj p /\ py_neq p' = py_neq p /\ py_nieq p' = (py_nieq p + if b then 2 * Z.of_nat (py_nvar p) else 0)%Z /\
  (forall v, pymoo_value p "F" x v -> pymoo_value p' "F" x v) /\
  (py_feasible p' x <-> (py_feasible p x /\ (b = true -> in_box (py_xl p) (py_xu p) x))).
Proof.
  intros p b m p' x E E' He Hn L1 L2 L3 (v & Hv) HG HH. destruct (C104_counts p b m E) as (A1 & A2 & A3 & A4 & A5 & A6).
  pose proof (C104_values p b m x v E He Hv) as Ov.
  assert (Ev : evaluates m x).
  { destruct (backed_inv p b m E) as (H1 & H2 & c & Ec & ->). unfold new_cmop in Ec. destruct (_ || _); [discriminate|]. injection Ec as <-.
    split; [eauto|]. unfold n_eq, n_ieq, eq_values, ieq_values, eq_constraint, ieq_constraint, call. cbn [nat_cstr].
    destruct b; cbn [c_neq c_nieq c_eq c_ieq]; split; intros Hp.
    - rewrite (proj2 (Z.ltb_lt _ _) Hp). destruct (HH Hp) as (h & Vh). exists h. apply evaluate_key_value; auto.
    - unfold add_boundary_constraints. rewrite !vsub_ok by congruence. destruct (0 <? py_nieq p)%Z eqn:Ei; [|cbn [bind]; eauto].
      apply Z.ltb_lt in Ei. destruct (HG Ei) as (g & Vg). rewrite (evaluate_key_value p "G" x g He Vg). cbn [bind]. eauto.
    - rewrite (proj2 (Z.ltb_lt _ _) Hp). destruct (HH Hp) as (h & Vh). exists h. apply evaluate_key_value; auto.
    - rewrite (proj2 (Z.ltb_lt _ _) Hp). destruct (HG Hp) as (h & Vh). exists h. apply evaluate_key_value; auto. }
  rewrite <- (C104_feasible p b m x E He Hn L1 L2 L3 HG HH). pose proof (C103_feasible m p' x E' Ev) as HF.
  destruct (C103_total m p' [x] E') as (out & EV). { intros y [<-|[]]. exact Ev. }
  destruct (C103_evaluate m p' [x] None out E' EV) as (_ & (F & LF & RF) & _). injection E' as <-. cbn [py_nvar py_nobj py_neq py_nieq].
  repeat (split; auto).
  - intros w Hw. pose proof (C104_values p b m x w E He Hw) as Ow. exists None, out, F. split; auto. split; auto. unfold rows_of in RF. cbn in RF. rewrite Ow in RF. destruct F as [|f [|]]; try discriminate.
    injection RF as <-. simpl. rewrite app_nil_r. auto.
Qed.
Print Assumptions C105_and_back.
(** the other way round it always fails: the adapter cannot be traced *)
Theorem C105_there_and_back_refuted : forall m b, (0 <= n_eq m)%Z -> (0 <= n_ieq m)%Z -> exists p, adapter (OMop m) = Ok p /\ from_pymoo (OPymoo p) b = Exn TypeError.
Proof.
  intros m b H1 H2. eexists. split; [reflexivity|]. cbn [from_pymoo]. unfold backed, new_cmop. cbn [py_neq py_nieq py_nvar py_xl py_xu].
  rewrite (proj2 (Z.ltb_ge _ _) H1), (proj2 (Z.ltb_ge _ _) H2). reflexivity.
Qed.
Print Assumptions C105_there_and_back_refuted.
Example C105_meets : exists m p', from_pymoo (OPymoo ex_pymoo) true = Ok m /\ adapter (OMop m) = Ok p' /\ py_nieq p' = 3%Z /\ py_feasible p' [1] /\ ~ py_feasible p' [5].
Proof.
  eexists. eexists. split; [reflexivity|]. split; [reflexivity|]. split; [reflexivity|]. split.
  - split; cbn; intros H; [|lia]. eexists. split. exists None. eexists. eexists. split; [reflexivity|]. split; reflexivity. cbn. repeat (apply Forall_cons; [lra|]). constructor.
  - intros [H _]. cbn in H. destruct (H ltac:(lia)) as (g & (r & out & M & E & L & ->) & Ng). cbn in E. injection E as <- <-. cbn in L. injection L as <-. cbn in Ng.
    inversion Ng as [|? ? ? Ng1]; subst. inversion Ng1 as [|? ? ? Ng2]; subst. inversion Ng2 as [|? ? Hc Ng3]; subst. lra.
Qed.
