(** Proofs about [check_KKT], [save] and [load]. *)
From Coq Require Import List Arith Bool Reals Lia Lra String.
From Verif Require Import Num Exn ListAux StateModel StateSpec StateProof.
Import ListNotations.
Open Scope R_scope.
Notation length := List.length.

Lemma leb_true a b : leb a b = true <-> a <= b.
Proof. unfold leb. destruct (Rle_dec a b); split; intros; auto; try discriminate. Qed.
Lemma geb_true a b : geb a b = true <-> b <= a.
Proof. unfold geb. destruct (Rle_dec b a); split; intros; auto; try discriminate. Qed.
Lemma geb_false a b : geb a b = false <-> a < b.
Proof. unfold geb. destruct (Rle_dec b a); split; intros; auto; try discriminate; lra. Qed.

Lemma dot_app a b c d : length a = length c -> dot (a ++ b) (c ++ d) = dot a c + dot b d.
Proof. revert c. induction a as [|x a IH]; intros [|y c]; simpl; intros H; try lia. lra. rewrite IH by lia. lra. Qed.
Lemma dot_comm a b : dot a b = dot b a.
Proof. revert b. induction a as [|x a IH]; intros [|y b]; simpl; auto. rewrite IH. lra. Qed.
Lemma dot_opp a b : dot (map Ropp a) b = - dot a b.
Proof. revert b. induction a as [|x a IH]; intros [|y b]; simpl; try lra. rewrite IH. lra. Qed.
Lemma dot_zero n b : dot (repeat 0 n) b = 0.
Proof. revert b. induction n; intros [|y b]; simpl; auto. rewrite IHn. lra. Qed.
Lemma dot_one b : dot (repeat 1 (length b)) b = fold_right Rplus 0 b.
Proof. induction b; simpl; auto. rewrite IHb. lra. Qed.

Lemma Forall2_repeat {A B} (P : A -> B -> Prop) l b : Forall2 P l (repeat b (length l)) <-> Forall (fun x => P x b) l.
Proof.
  induction l; simpl; split; intros H; inversion H; subst; constructor; auto; apply IHl; auto.
Qed.
Lemma Forall2_repeat_l {A B} (P : A -> B -> Prop) l a : Forall2 P (repeat a (length l)) l <-> Forall (fun x => P a x) l.
Proof.
  induction l; simpl; split; intros H; inversion H; subst; constructor; auto; apply IHl; auto.
Qed.
Lemma Forall2_app_iff {A B} (P : A -> B -> Prop) a b c d : length a = length c ->
  Forall2 P (a ++ b) (c ++ d) <-> Forall2 P a c /\ Forall2 P b d.
Proof.
  revert c. induction a as [|x a IH]; intros [|y c]; simpl; intros H; try lia.
  - split; auto. intros [_ H']; auto.
  - split. intros F. inversion F; subst. apply IH in H5 as [? ?]; [|lia]. split; auto. intros [F G]. inversion F; subst. constructor; auto. apply IH; auto.
Qed.

Section Point.
Variables (n_var : nat) (J DH DG : list (list R)).
Let nJ := length J. Let nH := length DH. Let nG := length DG.

(** the solutions of the linear program are the multipliers with a bound on the residual *)
Lemma kkt_feasible z : lp_feasible (kkt_lp n_var J DH DG) z <->
  exists w mu nu t, z = w ++ mu ++ nu ++ [t] /\ length w = nJ /\ length mu = nH /\ length nu = nG /\
    (forall a, In a w -> 0 <= a) /\ fold_right Rplus 0 w = 1 /\ (forall a, In a nu -> 0 <= a) /\ 0 <= t /\
    forall i, (i < n_var)%nat -> Rabs (dot w (column i J) + dot mu (column i DH) + dot nu (column i DG)) <= t.
Proof.
  assert (Key : forall w mu nu t, length w = nJ -> length mu = nH -> length nu = nG ->
    lp_feasible (kkt_lp n_var J DH DG) (w ++ mu ++ nu ++ [t]) <->
    (forall a, In a w -> 0 <= a) /\ fold_right Rplus 0 w = 1 /\ (forall a, In a nu -> 0 <= a) /\ 0 <= t /\
    forall i, (i < n_var)%nat -> Rabs (dot w (column i J) + dot mu (column i DH) + dot nu (column i DG)) <= t).
  { intros w mu nu t Hw Hm Hn. unfold lp_feasible, kkt_lp. cbn [lp_c lp_Aub lp_bub lp_Aeq lp_beq lp_lower].
    set (cols := J ++ DH ++ DG).
    assert (Hcol : forall i, dot (column i cols ++ [-1]) (w ++ mu ++ nu ++ [t]) =
        dot w (column i J) + dot mu (column i DH) + dot nu (column i DG) - t).
    { intros i. unfold cols, column. rewrite !map_app, <- !app_assoc.
      rewrite !dot_app by (rewrite map_length; subst nJ nH nG; auto). simpl. rewrite (dot_comm w), (dot_comm mu), (dot_comm nu). lra. }
    assert (Hcol' : forall i, dot (map Ropp (column i cols) ++ [-1]) (w ++ mu ++ nu ++ [t]) =
        - (dot w (column i J) + dot mu (column i DH) + dot nu (column i DG)) - t).
    { intros i. unfold cols, column. rewrite !map_app, <- !app_assoc.
      rewrite !dot_app by (rewrite !map_length; subst nJ nH nG; auto). rewrite !dot_opp. simpl. rewrite (dot_comm w), (dot_comm mu), (dot_comm nu). lra. }
    replace (2 * n_var)%nat with (length (map (fun r => r ++ [-1]) (map (fun i => column i cols) (seq 0 n_var) ++ map (map Ropp) (map (fun i => column i cols) (seq 0 n_var)))))
      by (rewrite map_length, app_length, !map_length, seq_length; lia).
    rewrite Forall2_repeat, map_app, Forall_app, !map_map.
    assert (Hl : length (w ++ mu ++ nu ++ [t]) = length (repeat 0 (length cols) ++ [1])).
    { unfold cols. rewrite !app_length, repeat_length, ?app_length. simpl. subst nJ nH nG. lia. }
    assert (Heq : dot (repeat 1 (length J) ++ repeat 0 (length DH + length DG) ++ [0]) (w ++ mu ++ nu ++ [t]) = fold_right Rplus 0 w).
    { rewrite dot_app by (rewrite repeat_length; auto). rewrite app_assoc. rewrite dot_app by (rewrite repeat_length, app_length; subst nH nG; lia).
      rewrite dot_zero. subst nJ. rewrite <- Hw, dot_one. simpl. lra. }
    rewrite !Forall2_app_iff by (rewrite repeat_length; auto).
    split.
    - intros (_ & [F1 F2] & F3 & F4 & F5 & F6 & F7). rewrite Forall_forall in F1, F2.
      inversion F3 as [|? ? ? ? F3' _]; subst. rewrite Heq in F3'.
      subst nJ nG. rewrite <- Hw in F4. apply Forall2_repeat_l in F4. rewrite <- Hn in F6. apply Forall2_repeat_l in F6.
      rewrite Forall_forall in F4, F6. inversion F7; subst.
      split; auto. split; auto. split; auto. split; auto. intros i Hi. apply Rabs_le.
      assert (Hi' : In i (seq 0 n_var)) by (apply in_seq; lia).
      specialize (F1 _ (in_map (fun i => column i cols ++ [-1]) _ _ Hi')). specialize (F2 _ (in_map (fun i => map Ropp (column i cols) ++ [-1]) _ _ Hi')).
      cbv beta in F1, F2. rewrite Hcol in F1. rewrite Hcol' in F2. lra.
    - intros (H1 & H2 & H3 & H4 & H5). split; [auto|]. split; [split|].
      + apply Forall_forall. intros r Hr. apply in_map_iff in Hr as (i & <- & Hi). apply in_seq in Hi. rewrite Hcol. specialize (H5 i ltac:(lia)).
        pose proof (Rle_abs (dot w (column i J) + dot mu (column i DH) + dot nu (column i DG))). lra.
      + apply Forall_forall. intros r Hr. apply in_map_iff in Hr as (i & <- & Hi). apply in_seq in Hi. rewrite Hcol'. specialize (H5 i ltac:(lia)).
        pose proof (Rle_abs (- (dot w (column i J) + dot mu (column i DH) + dot nu (column i DG)))). rewrite Rabs_Ropp in H. lra.
      + split. constructor; [|constructor]. rewrite Heq. auto. subst nJ nH nG. rewrite <- Hw, <- Hm, <- Hn. rewrite !Forall2_repeat_l, !Forall_forall.
        repeat split; auto. }
  split.
  - intros F. pose proof F as (Hl & _). unfold kkt_lp in Hl. cbn [lp_c] in Hl. rewrite app_length, repeat_length, !app_length in Hl. simpl in Hl.
    exists (firstn nJ z), (firstn nH (skipn nJ z)), (firstn nG (skipn nH (skipn nJ z))), (nth 0 (skipn nG (skipn nH (skipn nJ z))) 0).
    assert (L : length (skipn nG (skipn nH (skipn nJ z))) = 1%nat) by (rewrite !skipn_length; subst nJ nH nG; lia).
    assert (Ez : z = firstn nJ z ++ firstn nH (skipn nJ z) ++ firstn nG (skipn nH (skipn nJ z)) ++ [nth 0 (skipn nG (skipn nH (skipn nJ z))) 0]).
    { rewrite <- (firstn_skipn nJ z) at 1. f_equal. rewrite <- (firstn_skipn nH (skipn nJ z)) at 1. f_equal.
      rewrite <- (firstn_skipn nG (skipn nH (skipn nJ z))) at 1. f_equal. destruct (skipn nG (skipn nH (skipn nJ z))) as [|a [|b l]]; simpl in L; try lia. reflexivity. }
    assert (L1 : length (firstn nJ z) = nJ) by (rewrite firstn_length; subst nJ nH nG; lia).
    assert (L2 : length (firstn nH (skipn nJ z)) = nH) by (rewrite firstn_length, skipn_length; subst nJ nH nG; lia).
    assert (L3 : length (firstn nG (skipn nH (skipn nJ z))) = nG) by (rewrite firstn_length, !skipn_length; subst nJ nH nG; lia).
    split; [auto|]. split; [auto|]. split; [auto|]. split; [auto|]. apply Key; auto. rewrite <- Ez. auto.
  - intros (w & mu & nu & t & -> & Hw & Hm & Hn & H). apply Key; auto.
Qed.

Lemma kkt_objective w mu nu t : length w = nJ -> length mu = nH -> length nu = nG ->
  dot (lp_c (kkt_lp n_var J DH DG)) (w ++ mu ++ nu ++ [t]) = t.
Proof.
  intros Hw Hm Hn. unfold kkt_lp. cbn [lp_c]. rewrite !app_assoc, dot_app.
  rewrite dot_zero. simpl. lra. rewrite repeat_length, !app_length. subst nJ nH nG. lia.
Qed.

Lemma kkt_lp_decides answer stol : lp_answer (kkt_lp n_var J DH DG) answer ->
  match answer with None => false | Some z => leb (last z 0) stol end = true <->
  exists w mu nu, length w = nJ /\ length mu = nH /\ length nu = nG /\
    (forall a, In a w -> 0 <= a) /\ fold_right Rplus 0 w = 1 /\ (forall a, In a nu -> 0 <= a) /\
    0 <= stol /\ forall i, (i < n_var)%nat -> Rabs (dot w (column i J) + dot mu (column i DH) + dot nu (column i DG)) <= stol.
Proof.
  intros Hs. unfold lp_answer in Hs. destruct answer as [z|].
  - rewrite leb_true. destruct Hs as [F O]. apply kkt_feasible in F as (w & mu & nu & t & -> & Hw & Hm & Hn & H1 & H2 & H3 & H4 & H5).
    rewrite kkt_objective in O by auto. replace (last (w ++ mu ++ nu ++ [t]) 0) with t by (rewrite !app_assoc, last_last; auto). split.
    + intros Ht. exists w, mu, nu. repeat split; auto. lra. intros i Hi. specialize (H5 i Hi). lra.
    + intros (w' & mu' & nu' & Hw' & Hm' & Hn' & K1 & K2 & K3 & K4 & K5).
      specialize (O (w' ++ mu' ++ nu' ++ [stol])). rewrite kkt_objective in O by auto. apply O. apply kkt_feasible.
      exists w', mu', nu', stol. repeat split; auto.
  - split; [discriminate|]. intros (w' & mu' & nu' & Hw' & Hm' & Hn' & K1 & K2 & K3 & K4 & K5).
    assert (F : lp_feasible (kkt_lp n_var J DH DG) (w' ++ mu' ++ nu' ++ [stol])).
    { apply kkt_feasible. exists w', mu', nu', stol. repeat split; auto. }
    exfalso. destruct Hs as [Hs|Hs]. apply (Hs _ F). destruct (Hs 0) as (z & Fz & Hz).
    apply kkt_feasible in Fz as (w & mu & nu & t & -> & Hw & Hm & Hn & H1 & H2 & H3 & H4 & H5). rewrite kkt_objective in Hz by auto. lra.
Qed.
End Point.

(** multipliers of the active constraints, extended by zeros *)
Fixpoint expand (mask : list bool) (nu : list R) : list R :=
  match mask with
  | [] => []
  | true :: m => hd 0 nu :: expand m (tl nu)
  | false :: m => 0 :: expand m nu
  end.
Lemma select_cons_true {A} m (a : A) l : select (true :: m) (a :: l) = a :: select m l. Proof. reflexivity. Qed.
Lemma select_cons_false {A} m (a : A) l : select (false :: m) (a :: l) = select m l. Proof. reflexivity. Qed.
Lemma select_nil {A} m : @select A m [] = []. Proof. unfold select. rewrite combine_nil. reflexivity. Qed.
Lemma select_map {A B} (f : A -> B) m l : map f (select m l) = select m (map f l).
Proof.
  revert l. induction m as [|b m IH]; intros [|a l]; auto; simpl map at 2.
  destruct b. rewrite !select_cons_true. simpl. rewrite IH. auto. rewrite !select_cons_false. auto.
Qed.
Lemma expand_length m nu : length (expand m nu) = length m.
Proof. revert nu. induction m as [|[] m IH]; intros; simpl; auto. Qed.
Lemma select_length {A B} m (l : list A) (l' : list B) : length l = length l' -> length (select m l) = length (select m l').
Proof.
  revert l l'. induction m as [|b m IH]; intros [|a l] [|a' l']; simpl length at 1 2; intros H; auto; try discriminate.
  injection H as H. destruct b; simpl; rewrite ?select_cons_true, ?select_cons_false; simpl; auto.
  apply (f_equal S). apply (IH l l'); auto.
Qed.
Lemma dot_expand m nu a : length a = length m -> dot (expand m nu) a = dot nu (select m a).
Proof.
  revert nu a. induction m as [|b m IH]; intros nu [|x a]; simpl length; intros H; try discriminate.
  - destruct nu; reflexivity.
  - injection H as H. destruct b; simpl expand.
    + rewrite select_cons_true. destruct nu as [|y nu]; simpl; rewrite IH by auto; simpl; try lra.
    + rewrite select_cons_false. simpl. rewrite IH by auto. lra.
Qed.
Lemma dot_select m lam a : length a = length m -> length lam = length m ->
  (forall l, (l < length m)%nat -> nth l m true = false -> nth l lam 0 = 0) ->
  dot (select m lam) (select m a) = dot lam a.
Proof.
  revert lam a. induction m as [|b m IH]; intros [|y lam] [|x a]; simpl length; intros H1 H2 H3; try discriminate; auto.
  injection H1 as H1. injection H2 as H2.
  assert (H4 : forall l, (l < length m)%nat -> nth l m true = false -> nth l lam 0 = 0).
  { intros l Hl Hf. apply (H3 (S l)); auto. lia. }
  destruct b; rewrite ?select_cons_true, ?select_cons_false; simpl; rewrite IH by auto; auto.
  specialize (H3 0%nat ltac:(lia) eq_refl). simpl in H3. rewrite H3. lra.
Qed.
Lemma expand_nonneg m nu l : (forall a, In a nu -> 0 <= a) -> 0 <= nth l (expand m nu) 0.
Proof.
  revert nu l. induction m as [|[] m IH]; intros nu l H; simpl. destruct l; lra.
  - destruct l. destruct nu; simpl. lra. apply H; simpl; auto. apply IH. intros a Ha. apply H. destruct nu; simpl in *; auto.
  - destruct l. lra. apply IH; auto.
Qed.
Lemma expand_inactive m nu l : nth l m true = false -> nth l (expand m nu) 0 = 0.
Proof.
  revert nu l. induction m as [|[] m IH]; intros nu [|l] H; simpl in *; try discriminate; auto.
Qed.
Lemma select_in {A} m (l : list A) x : In x (select m l) -> In x l.
Proof. unfold select. intros H. apply in_map_iff in H as ((b & y) & <- & H). apply filter_In in H as [H _]. apply in_combine_r in H. auto. Qed.

Lemma kkt_point_spec linprog n_var n_eq stol ftol atol J H G D :
  (let p := kkt_lp n_var J (firstn n_eq D) (select (map (fun g => geb g (- atol)) G) (skipn n_eq D)) in lp_answer p (linprog p)) ->
  0 <= stol -> length H = n_eq -> length D = (n_eq + length G)%nat ->
  kkt_point linprog n_var n_eq stol ftol atol J H G D = true <->
  approx_kkt n_var stol ftol atol J H G (firstn n_eq D) (skipn n_eq D).
Proof.
  intros Hs Hst HH HD. cbv zeta in Hs. unfold kkt_point, approx_kkt.
  set (DH := firstn n_eq D). set (DGa := skipn n_eq D). set (m := map (fun g => geb g (- atol)) G).
  assert (LDH : length DH = length H) by (unfold DH; rewrite firstn_length; lia).
  assert (LDG : length DGa = length m) by (unfold DGa, m; rewrite skipn_length, map_length; lia).
  assert (Lm : length m = length G) by (unfold m; rewrite map_length; auto).
  assert (Hm : forall l, (l < length G)%nat -> (nth l m true = false <-> nth l G 0 < - atol)).
  { intros l Hl. unfold m. rewrite (nth_indep _ true ((fun g => geb g (- atol)) 0)) by (rewrite map_length; auto).
    rewrite (map_nth (fun g => geb g (- atol))). apply geb_false. }
  destruct (existsb _ H) eqn:E1; simpl.
  { split; [discriminate|]. intros (H1 & _). apply existsb_exists in E1 as (h & Hh & E). apply H1 in Hh. apply leb_true in Hh. rewrite Hh in E. discriminate. }
  destruct (existsb _ G) eqn:E2; simpl.
  { split; [discriminate|]. intros (_ & H1 & _). apply existsb_exists in E2 as (h & Hh & E). apply H1 in Hh. apply leb_true in Hh. rewrite Hh in E. discriminate. }
  assert (F1 : forall h, In h H -> Rabs h <= ftol).
  { intros h Hh. apply leb_true. destruct (leb (Rabs h) ftol) eqn:E; auto. assert (existsb (fun h => negb (leb (Rabs h) ftol)) H = true); [|congruence].
    apply existsb_exists. exists h. rewrite E. auto. }
  assert (F2 : forall g, In g G -> g <= ftol).
  { intros h Hh. apply leb_true. destruct (leb h ftol) eqn:E; auto. assert (existsb (fun g => negb (leb g ftol)) G = true); [|congruence].
    apply existsb_exists. exists h. rewrite E. auto. }
  rewrite (kkt_lp_decides n_var J DH (select m DGa) (linprog (kkt_lp n_var J DH (select m DGa))) stol Hs). unfold column. split.
  - intros (w & mu & nu & Hw & Hmu & Hnu & K1 & K2 & K3 & _ & K5). split; [auto|]. split; [auto|].
    exists w, mu, (expand m nu). rewrite expand_length. repeat split; auto; try congruence.
    + apply expand_nonneg; auto.
    + intros Hl. apply expand_inactive. apply Hm; auto.
    + intros i Hi. rewrite dot_expand by (rewrite map_length; auto). rewrite <- select_map. apply K5; auto.
  - intros (_ & _ & w & mu & lam & Hw & Hmu & Hlam & K1 & K2 & K3 & K5).
    exists w, mu, (select m lam). repeat split; auto; try congruence.
    + apply select_length. congruence.
    + intros a Ha. apply select_in in Ha. apply (In_nth _ _ 0) in Ha as (l & Hl & <-). apply K3. congruence.
    + intros i Hi. rewrite select_map, dot_select; auto. rewrite map_length; auto. congruence.
      intros l Hl Hf. rewrite Lm in Hl. apply K3; auto. apply Hm; auto.
Qed.

(** * [save] *)
Section Pickle.
Context {V : Type}.
Open Scope string_scope.
Lemma mem_filter k k' (d : dict V) : k <> k' -> mem V k (filter (fun kv => negb (String.eqb k' (fst kv))) d) = mem V k d.
Proof.
  intros Hk. unfold mem. induction d as [|[a v] d IH]; auto. cbn [filter fst]. destruct (String.eqb k' a) eqn:E; cbn [negb].
  - apply String.eqb_eq in E. subst a. rewrite IH. cbn [existsb fst]. destruct (String.eqb k k') eqn:E; auto. apply String.eqb_eq in E. contradiction.
  - cbn [existsb fst]. rewrite IH. auto.
Qed.
Lemma del_all_missing ks k (d : dict V) : In k ks -> mem V k d = false -> NoDup ks ->
  exists e, del_all V ks d = Exn e /\ e = KeyError.
Proof.
  revert d. induction ks as [|a ks IH]; intros d Hin Hm Hnd; [destruct Hin|]. inversion Hnd; subst.
  cbn [del_all]. unfold del at 1. destruct (mem V a d) eqn:E; cbn [bind]; eauto.
  destruct Hin as [->|Hin]; [congruence|]. apply IH; auto. rewrite mem_filter; auto. intros ->. contradiction.
Qed.
Lemma save_fails fs f (d : dict V) : mem V "_jac" d = false ->
  save V fs f d = (write V fs (f ++ ".pkl") (Empty V), Exn KeyError).
Proof.
  intros H. unfold save. destruct (del_all_missing del_keys "_jac" d) as (e & -> & ->); auto.
  - simpl; auto.
  - repeat constructor; simpl; intuition discriminate.
Qed.
Lemma mem_setattr k k' v (d : dict V) : k <> k' -> mem V k (setattr V k' v d) = mem V k d.
Proof.
  intros H. unfold setattr. unfold mem at 1. cbn [existsb fst].
  destruct (String.eqb k k') eqn:E. apply String.eqb_eq in E. contradiction. apply mem_filter; auto.
Qed.
Lemma mem_sets k (kvs : list (string * V)) (d : dict V) : (forall kv, In kv kvs -> fst kv <> k) ->
  mem V k (fold_left (fun d kv => setattr V (fst kv) (snd kv) d) kvs d) = mem V k d.
Proof.
  revert d. induction kvs as [|[a v] kvs IH]; intros d H; auto. cbn [fold_left fst snd]. rewrite IH. apply mem_setattr.
  intros ->. apply (H (a, v)); simpl; auto. intros kv Hkv. apply H. simpl; auto.
Qed.
End Pickle.

(** * [check_KKT] *)
Lemma nth_error_combine {A B} (l : list A) (l' : list B) i a b : nth_error l i = Some a -> nth_error l' i = Some b ->
  nth_error (combine l l') i = Some (a, b).
Proof. revert l' i. induction l as [|x l IH]; intros [|y l'] [|i]; simpl; intros; try discriminate; try congruence. auto. Qed.

Lemma check_KKT_spec : forall linprog n_var n_eq n_ieq stol ftol atol J C D bs i Ji Ci Di,
  check_KKT linprog n_var n_eq n_ieq stol ftol atol (Some J) C D = Ok bs ->
  nth_error J i = Some Ji -> nth_error C i = Some Ci -> nth_error D i = Some Di ->
  List.length Ci = (n_eq + n_ieq)%nat ->
  (n_eq + n_ieq = 0 -> Di = [])%nat ->
  (let G := skipn n_eq Ci in
   let p := kkt_lp n_var Ji (firstn n_eq Di) (select (map (fun g => geb g (- atol)) G) (skipn n_eq Di)) in lp_answer p (linprog p)) ->
  exists b, nth_error bs i = Some b /\
   (b = true <-> approx_kkt n_var stol ftol atol Ji (firstn n_eq Ci) (skipn n_eq Ci) (firstn n_eq Di) (skipn n_eq Di)).
Proof.
  intros linprog n_var n_eq n_ieq stol ftol atol J C D bs i Ji Ci Di E HJ HC HD LC L0 Hs. unfold check_KKT in E.
  destruct (negb _) eqn:Et; [discriminate|]. apply negb_false_iff in Et. apply andb_true_iff in Et as [Et _]. apply andb_true_iff in Et as [Et _]. apply geb_true in Et.
  destruct ((0 <? n_eq + n_ieq)%nat && _) eqn:Es; [discriminate|]. injection E as <-.
  eexists. split. { apply map_nth_error. apply nth_error_combine; eauto. apply nth_error_combine; eauto. }
  cbn [fst snd]. apply kkt_point_spec; auto.
  - rewrite firstn_length. lia.
  - rewrite skipn_length. apply andb_false_iff in Es as [Es|Es].
    + apply Nat.ltb_ge in Es. rewrite L0 by lia. simpl. lia.
    + apply negb_false_iff in Es. rewrite forallb_forall in Es. apply nth_error_In in HD. apply Es in HD. apply Nat.eqb_eq in HD. lia.
Qed.

Lemma check_KKT_errors : forall linprog n_var n_eq n_ieq stol ftol atol J C D,
  (stol < 0 \/ ftol < 0 \/ atol < 0 -> check_KKT linprog n_var n_eq n_ieq stol ftol atol J C D = Exn ValueError) /\
  (0 <= stol -> 0 <= ftol -> 0 <= atol -> check_KKT linprog n_var n_eq n_ieq stol ftol atol None C D = Exn RuntimeError) /\
  (0 <= stol -> 0 <= ftol -> 0 <= atol -> (0 < n_eq + n_ieq)%nat -> In [] D ->
     check_KKT linprog n_var n_eq n_ieq stol ftol atol J C D = Exn RuntimeError).
Proof.
  intros. unfold check_KKT. split; [|split].
  - intros [H|[H|H]]; apply geb_false in H; rewrite H; rewrite ?andb_false_r; auto.
  - intros H1 H2 H3. apply geb_true in H1, H2, H3. rewrite H1, H2, H3. auto.
  - intros H1 H2 H3 Hn Hin. apply geb_true in H1, H2, H3. rewrite H1, H2, H3. cbn [andb negb]. destruct J as [J|]; auto.
    replace (0 <? n_eq + n_ieq)%nat with true by (symmetry; apply Nat.ltb_lt; auto).
    replace (forallb _ D) with false; auto. symmetry. apply not_true_is_false. intros E. rewrite forallb_forall in E. apply E in Hin. apply Nat.eqb_eq in Hin. simpl in Hin. lia.
Qed.

Lemma kkt_example : let p := kkt_lp 1 [[1]; [-1]] [] [] in let answer := Some [/ 2; / 2; 0] in
  lp_answer p answer /\ check_KKT (fun _ => answer) 1 0 0 (/ 10000) (/ 10000) (/ 10000) (Some [[[1]; [-1]]]) [[]] [[]] = Ok [true].
Proof.
  cbv zeta. split; [split|].
  - apply kkt_feasible. exists [/ 2; / 2], [], [], 0. repeat split; simpl; try lra. intros a [<-|[<-|[]]]; lra. intros a [].
    intros i Hi. replace i with 0%nat by lia. simpl. replace (_ + _) with 0 by lra. rewrite Rabs_R0. lra.
  - intros z Hz. apply kkt_feasible in Hz as (w & mu & nu & t & -> & Hw & Hm & Hn & _ & _ & _ & Ht & _).
    rewrite kkt_objective by auto. change [/ 2; / 2; 0] with ([/ 2; / 2] ++ [] ++ [] ++ [0]). rewrite kkt_objective by auto. auto.
  - unfold check_KKT. replace (geb (/ 10000) 0) with true by (symmetry; apply geb_true; lra). simpl. unfold kkt_point. simpl.
    replace (leb 0 (/ 10000)) with true by (symmetry; apply leb_true; lra). auto.
Qed.
