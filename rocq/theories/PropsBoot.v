(** Property theorems: the bootstrapping of the reference set. *)
From Coq Require Import List Arith Bool ZArith Reals Lia Lra Sorting.Sorted.
From Verif Require Import Num Exn ListAux NewtonModel StateModel RefModel RefProof NDSSpec UtilsModel UtilsProof BootModel BootSpec BootProof.
Import ListNotations.
Open Scope R_scope.

Section Lemmas.
Variable newton : opt -> res opt.
Variable rsg : list (list R) -> nat -> res (list (list R)).
Variable chim : list (list R) -> res (list R).
Variable compute : refset -> list (list R) -> res refset.
Variable lof : list (list R) -> res (list bool).
Variable kmedoids : list (list R) -> nat -> res (list nat).
Variables (dim N : nat) (interval : Z) (with_rsg : bool).
Notation boot := (rebooted rsg chim compute N with_rsg).
Notation bootstrap := (bootstrap newton rsg chim compute lof kmedoids dim N interval with_rsg).
Notation loop := (BootModel.loop newton rsg chim compute dim N interval with_rsg).
Lemma trajectory_of t r n : interval <> 0%Z -> (forall j, (0 <= j < 0 + n)%nat -> step_ok newton rsg chim compute N interval with_rsg t r j) -> trajectory newton boot interval n t r.
Proof.
  intros Hi H i Hn. specialize (H i ltac:(lia)). unfold step_ok in H. destruct (due interval i) eqn:Ed.
  - apply (due_time interval i Hi) in Ed. destruct H as (o & Er & En). exists o. split; auto. left. split; auto. apply reboot_inv in Er.
    destruct Er as (Hr & eta & rs & b & Ec & Ers & Eb & EX & EY & Em & Eb'). split; auto. split; auto. split; auto. split; eauto. exists eta, rs. injection Ers as <-. cbn. auto 10.
  - exists (t i). split; auto. right. split; auto. intros K. apply (due_time interval i Hi) in K. congruence.
Qed.
Lemma loop_interval n i o l x : loop (S n) i o l = Ok x -> interval <> 0%Z.
Proof. cbn [BootModel.loop]. destruct (interval =? 0)%Z eqn:E; [discriminate|]. intros _. apply Z.eqb_neq in E. auto. Qed.
Lemma bootstrap_inv n last_n o res o' : bootstrap (Some n) last_n o = Ok (res, o') -> (0 < n)%nat /\ interval <> 0%Z /\
  exists t r f ix, t 0%nat = o /\ t n = o' /\ (forall j, (0 <= j < 0 + n)%nat -> step_ok newton rsg chim compute N interval with_rsg t r j) /\
  r_list res = map r (filter (due interval) (seq 0 n)) /\ r_list res <> [] /\ r_ref res = o_ref o' /\
  mapM (fun xy => filter_outliers lof (fst xy) (snd xy)) (combine (last_slice last_n (map (fun j => map (firstn dim) (o_X (t j))) (seq 0 n))) (last_slice last_n (map (fun j => o_Y (t j)) (seq 0 n)))) = Ok f /\
  kmedoids (concat (map snd f)) N = Ok ix /\ take_rows (concat (map fst f)) ix = Ok (r_X res) /\ take_rows (concat (map snd f)) ix = Ok (r_Y res).
Proof.
  unfold BootModel.bootstrap. intros E. destruct (loop n 0 o (mkLogs [] [] [])) as [[oe l]|] eqn:El; [|discriminate]. cbn [bind] in E.
  destruct (filtered lof last_n l) as [f|] eqn:Ef; [|discriminate]. cbn [bind] in E. destruct (kmedoids _ N) as [ix|] eqn:Ek; [|discriminate]. cbn [bind] in E.
  destruct (take_rows (concat (map fst f)) ix) as [X0|] eqn:EX; [|discriminate]. cbn [bind] in E. destruct (take_rows (concat (map snd f)) ix) as [Y0|] eqn:EY; [|discriminate]. cbn [bind] in E.
  assert (Hn : (0 < n)%nat). { destruct n; [|lia]. injection El as <- <-. unfold filtered, last_slice in Ef. cbn [l_X l_Y] in Ef. destruct (last_n <=? 0)%Z; rewrite !skipn_nil in Ef; discriminate. }
  assert (Hi : interval <> 0%Z). { destruct n; [lia|]. apply loop_interval in El. auto. }
  split; auto. split; auto. apply loop_inv in El. destruct El as (t & r & T0 & T1 & H & HX & HY & HR). cbn [l_X l_Y l_ref app] in *.
  destruct (l_ref l) as [|r0 rl] eqn:Er; [discriminate|]. injection E as <- <-. exists t, r, f, ix. cbn [r_list r_ref r_X r_Y].
  split; auto. split; auto. split; auto. split; auto. split; [discriminate|]. split; auto. split; auto.
  unfold filtered in Ef. rewrite HX, HY in Ef. destruct (mapM _ _) as [g|] eqn:Eg; [|discriminate]. cbn [bind] in Ef. destruct g; [discriminate|]. injection Ef as <-. auto.
Qed.
End Lemmas.

(** * C106 *)
(** the run: which iterations bootstrap, what they do, and what is reported *)
Theorem C106_run : forall newton rsg chim compute lof kmedoids dim N interval with_rsg n last_n o res o',
  bootstrap newton rsg chim compute lof kmedoids dim N interval with_rsg (Some n) last_n o = Ok (res, o') ->
  exists t r T, t 0%nat = o /\ t n = o' /\ trajectory newton (rebooted rsg chim compute N with_rsg) interval n t r /\
    StronglySorted lt T /\ (forall i, In i T <-> (i < n)%nat /\ boot_time interval i) /\ r_list res = map r T /\ r_ref res = o_ref o'.
Proof.
  intros newton rsg chim compute lof kmedoids dim N interval with_rsg n last_n o res o' E. apply bootstrap_inv in E.
  destruct E as (Hn & Hi & t & r & f & ix & T0 & T1 & H & HR & _ & Href & _). exists t, r, (filter (due interval) (seq 0 n)).
  split; auto. split; auto. split. { eapply trajectory_of; eauto. }
  split. { clear. generalize 0%nat. induction n as [|n IH]; intros s; cbn [seq filter]; [constructor|]. destruct (due interval s); auto. constructor; auto. apply Forall_forall. intros x Hx. apply filter_In in Hx. destruct Hx as [Hx _]. apply in_seq in Hx. lia. }
  split; auto. intros i. rewrite filter_In, in_seq. rewrite (due_time interval i Hi). split; intros [A B]; split; auto; lia.
Qed.
Print Assumptions C106_run.
(** how many: one per multiple of the interval below the number of iterations *)
Theorem C106_rounds : forall newton rsg chim compute lof kmedoids dim N interval with_rsg n last_n o res o',
  bootstrap newton rsg chim compute lof kmedoids dim N interval with_rsg (Some n) last_n o = Ok (res, o') ->
  length (r_list res) = ((n - 1) / Z.abs_nat interval)%nat /\ (0 < Z.abs_nat interval < n)%nat.
Proof.
  intros newton rsg chim compute lof kmedoids dim N interval with_rsg n last_n o res o' E. apply bootstrap_inv in E.
  destruct E as (Hn & Hi & t & r & f & ix & _ & _ & _ & HR & Hne & _). assert (L : length (r_list res) = ((n - 1) / Z.abs_nat interval)%nat).
  { rewrite HR, map_length. rewrite <- (count_due interval Hi). do 3 f_equal. lia. }
  split; auto. split; [lia|]. destruct (Nat.lt_ge_cases (Z.abs_nat interval) n) as [|Hc]; auto. exfalso. rewrite Nat.div_small in L by lia. destruct (r_list res); [congruence|discriminate].
Qed.
Print Assumptions C106_rounds.
(** the weight of the spread term: a factor 0.8 per bootstrapping *)
Theorem C106_beta : forall newton rsg chim compute lof kmedoids dim N interval with_rsg n last_n o res o' b,
  (forall o o', newton o = Ok o' -> o_ind o' = o_ind o) -> o_ind o = WithBeta b ->
  bootstrap newton rsg chim compute lof kmedoids dim N interval with_rsg (Some n) last_n o = Ok (res, o') ->
  o_ind o' = WithBeta (b * 0.8 ^ (length (r_list res))).
Proof.
  intros newton rsg chim compute lof kmedoids dim N interval with_rsg n last_n o res o' b Hk Hb E. apply bootstrap_inv in E.
  destruct E as (Hn & Hi & t & r & f & ix & T0 & T1 & H & HR & _). pose proof (discounts newton rsg chim compute N interval with_rsg t r Hk n 0 b) as D.
  rewrite T0 in D. specialize (D Hb H). cbn [Nat.add] in D. rewrite T1 in D. rewrite HR, map_length. exact D.
Qed.
Print Assumptions C106_beta.
(** the errors *)
Theorem C106_errors : forall newton rsg chim compute lof kmedoids dim N interval with_rsg last_n o,
  bootstrap newton rsg chim compute lof kmedoids dim N interval with_rsg None last_n o = Exn TypeError /\
  bootstrap newton rsg chim compute lof kmedoids dim N interval with_rsg (Some 0%nat) last_n o = Exn ValueError /\
  (forall n, bootstrap newton rsg chim compute lof kmedoids dim N 0%Z with_rsg (Some (S n)) last_n o = Exn ZeroDivisionError) /\
  (forall n x, (n <= Z.abs_nat interval)%nat -> bootstrap newton rsg chim compute lof kmedoids dim N interval with_rsg (Some n) last_n o <> Ok x).
Proof.
  intros newton rsg chim compute lof kmedoids dim N interval with_rsg last_n o. split; auto. split.
  { unfold bootstrap, filtered. cbn [loop bind l_X l_Y]. unfold last_slice. destruct (last_n <=? 0)%Z; rewrite !skipn_nil; reflexivity. }
  split; auto. intros n [res o'] Hn E. apply C106_rounds in E. lia.
Qed.
Print Assumptions C106_errors.
(** an optimizer without a weight (DpN, or MMDNewton without matching) fails in the first bootstrapping *)
Theorem C106_no_weight : forall newton rsg chim compute lof kmedoids dim N interval with_rsg n last_n o,
  (forall o, exists o', newton o = Ok o' /\ o_ind o' = o_ind o) -> (forall Y N, exists ref, rsg Y N = Ok ref) -> (forall Y, exists e, chim Y = Ok e) -> (forall rs Y, exists rs', compute rs Y = Ok rs') ->
  (forall b, o_ind o <> WithBeta b) -> (0 < Z.abs_nat interval < n)%nat ->
  bootstrap newton rsg chim compute lof kmedoids dim N interval with_rsg (Some n) last_n o = Exn AttributeError.
Proof.
  intros newton rsg chim compute lof kmedoids dim N interval with_rsg n last_n o Hn Hr Hc Hm Hb Hi.
  assert (L : forall k i o l, (forall b, o_ind o <> WithBeta b) -> (exists j, (i <= j < i + k)%nat /\ due interval j = true) -> loop newton rsg chim compute dim N interval with_rsg k i o l = Exn AttributeError).
  { clear o Hb n Hi. induction k as [|k IH]; intros i o l Hb (j & Hj & Ej); [lia|]. cbn [loop]. destruct (interval =? 0)%Z eqn:Ez.
    { apply Z.eqb_eq in Ez. subst interval. unfold due in Ej. exfalso. rewrite Zmod_0_r in Ej. apply andb_true_iff in Ej. destruct Ej as [E1 E2]. apply Z.eqb_eq in E1. apply Nat.ltb_lt in E2. lia. }
    destruct (due interval i) eqn:Ed.
    - assert (E : reboot rsg chim compute N with_rsg o = Exn AttributeError); [|rewrite E; auto]. unfold reboot.
      assert (exists ref, (if with_rsg then rsg (map relax (o_Y o)) N else Ok (map relax (o_Y o))) = Ok ref) as (ref & ->). { destruct with_rsg; eauto. }
      cbn [bind]. destruct (Hc ref) as (eta & ->). cbn [bind new_refset]. destruct (o_ind o) as [| |b]; auto; [|exfalso; apply (Hb b); auto].
      destruct (Hm (mkRS [map (fun r => add_vec r (scale 0.05 eta)) ref] [eta] None true (map (fun _ => None) [map (fun r => add_vec r (scale 0.05 eta)) ref]) None) (o_Y o)) as (rs' & ->). auto.
    - destruct (Hn o) as (o1 & -> & Eo). cbn [bind]. apply IH. { rewrite Eo. auto. } exists j. split; auto. destruct (Nat.eq_dec j i) as [->|]; [congruence|lia]. }
  unfold bootstrap. rewrite L; auto. exists (Z.abs_nat interval). split; [lia|]. apply due_time; [lia|]. apply boot_time_nat. split; [lia|]. exists 1%nat. lia.
Qed.
Print Assumptions C106_no_weight.

Definition ex_newton (o : opt) : res opt := Ok (mkOpt (o_X o) (map (map (fun a => a - 1)) (o_Y o)) (o_ref o) (o_ind o)).
Definition ex_rs : refset := mkRS [[[0; 0]]] [[-1; 0]] None true [None] None.
Definition ex_opt : opt := mkOpt [[7; 8]] [[5; 5]] ex_rs (WithBeta (/ 4)).
Definition ex_run (newton : opt -> res opt) (interval : Z) (n : nat) (last_n : Z) (o : opt) : res (result * opt) :=
  bootstrap newton (fun Y _ => Ok Y) (fun _ => Ok [-1; 0]) (fun rs _ => Ok rs) (fun Y => Ok (repeat true (length Y))) (fun _ N => Ok (seq 0 N)) 1 1 interval true (Some n) last_n o.
Lemma one_row (y : list R) : get_non_dominated_idx (fun _ _ => false) true [y] = Ok [0%nat].
Proof. reflexivity. Qed.
Example C106_meets : exists res o', ex_run ex_newton 2 4 3 ex_opt = Ok (res, o') /\ length (r_list res) = 1%nat /\ o_ind o' = WithBeta (/ 4 * 0.8) /\ o_Y o' = [[5 - 1 - 1 - 1 - 1; 5 - 1 - 1 - 1 - 1]].
Proof. eexists. eexists. split; [cbv -[Rplus Rminus Rmult Rdiv IZR INR Rinv Q2R]; reflexivity|]. split; [reflexivity|]. split; [|reflexivity]. cbn [o_ind]. reflexivity. Qed.

(** * C107 *)
(** relaxing keeps the order and the mean, and turns dominance into dominance in every objective *)
Theorem C107_relax : forall y z, (weakly_better y z -> weakly_better (relax y) (relax z)) /\ (weakly_better y z -> y <> z -> better (relax y) (relax z)) /\
  length (relax y) = length y /\ (y <> [] -> mean (relax y) = fold_right Rplus 0 y / INR (length y)).
Proof. intros y z. split; [apply relax_mono|]. split; [apply relax_strict|]. split; [apply relax_length|]. apply relax_mean. Qed.
Print Assumptions C107_relax.
(** exactly the trade-offs that are accepted: losses below 1/19 of the gain in the mean *)
Theorem C107_tradeoff : forall y z, length y = length z -> better (relax y) (relax z) <-> Forall2 (fun a b => 19 * (a - b) < mean z - mean y) y z.
Proof.
  intros y z H. unfold better, relax. generalize (mean y) (mean z). intros my mz. revert z H. induction y as [|a y IH]; intros [|b z] H; try discriminate; cbn [map].
  - split; constructor.
  - split; intros K; inversion K; subst; constructor; try lra; apply (IH z); auto.
Qed.
Print Assumptions C107_tradeoff.
(** every point that is efficient after relaxing is efficient *)
Theorem C107_efficient : forall Y j, efficient (map relax Y) j -> efficient Y j.
Proof.
  intros Y j [Hj H]. rewrite map_length in *. split; auto. intros k Hk Hne HW. apply (H k Hk Hne). pose proof (map_nth relax Y [] k) as E1. pose proof (map_nth relax Y [] j) as E2. change (relax []) with (@nil R) in E1, E2. rewrite E1, E2. apply relax_mono. auto.
Qed.
Print Assumptions C107_efficient.
(** and the converse fails, as intended: a dominance resistant point is relaxed away *)
Theorem C107_converse_refuted : exists Y j, efficient Y j /\ ~ efficient (map relax Y) j.
Proof.
  exists [[0; 100]; [1; 1]], 0%nat. split.
  - split; [cbn; lia|]. intros [|[|k]] Hk Hne HW; cbn in *; try lia. inversion HW; subst. lra.
  - intros [_ H]. apply (H 1%nat); [cbn; lia|lia|]. cbn. unfold mean. cbn. repeat constructor; lra.
Qed.
Print Assumptions C107_converse_refuted.
(** the new targets lie below the new set, if the direction is not positive *)
Theorem C107_targets : forall rsg chim N with_rsg o ref o', (forall Y e, chim Y = Ok e -> Forall (fun a => a <= 0) e) ->
  rebooted rsg chim (fun rs _ => Ok rs) N with_rsg o ref o' -> (forall r e, In r ref -> chim ref = Ok e -> length r = length e) ->
  Forall2 weakly_better (reference_set (o_ref o')) ref.
Proof.
  intros rsg chim N with_rsg o ref o' He (_ & _ & _ & _ & eta & rs & Ec & Er & _ & _ & Em & E) HL. injection E as <-. unfold reference_set. rewrite Em, Er. cbn [concat]. rewrite app_nil_r.
  specialize (He _ _ Ec). assert (K : forall r, In r ref -> length r = length eta) by (intros; apply HL; auto). clear -K He. induction ref as [|r ref IH]; cbn [map]; constructor.
  - specialize (K r (or_introl eq_refl)). clear IH ref. revert eta He K. induction r as [|a r IH]; intros [|e eta] He K; try discriminate; cbn; constructor.
    + inversion He; subst. lra.
    + apply IH; [inversion He; auto|]. cbn in K. lia.
  - apply IH. intros. apply K. right. auto.
Qed.
Print Assumptions C107_targets.
Example C107_meets : weakly_better [1; 2] [1; 3] /\ [1; 2] <> [1; 3] /\ exists ref o', rebooted (fun Y _ => Ok Y) (fun _ => Ok [-1; 0]) (fun rs _ => Ok rs) 1 true ex_opt ref o' /\ Forall (fun a => a <= 0) [-1; 0].
Proof.
  split; [repeat constructor; lra|]. split; [intros K; injection K; lra|].
  exists (map relax (o_Y ex_opt)). set (rs := mkRS [map (fun r => zip_with Rplus r (map (Rmult 0.05) [-1; 0])) (map relax (o_Y ex_opt))] [[-1; 0]] None true [None] None).
  exists (mkOpt (o_X ex_opt) (o_Y ex_opt) rs (WithBeta (/ 4 * 0.8))). split.
  - split; [reflexivity|]. split; [reflexivity|]. split; [reflexivity|]. split; [exists (/ 4); split; reflexivity|].
    exists [-1; 0], rs. split; [reflexivity|]. cbn [rs_ref rs_eta rs_Yidx rs_matched]. split; [reflexivity|]. split; [reflexivity|]. split; [reflexivity|]. split; [reflexivity|]. reflexivity.
  - repeat constructor; lra.
Qed.

(** * C108 *)
(** every returned pair is an efficient point, with its decision variables, of one of the populations of the window *)
Theorem C108_rows : forall newton rsg chim compute lof kmedoids dim N interval with_rsg n last_n o res o' m,
  (forall o o', newton o = Ok o' -> wf_pop m o -> wf_pop m o') -> wf_pop m o ->
  bootstrap newton rsg chim compute lof kmedoids dim N interval with_rsg (Some n) last_n o = Ok (res, o') ->
  exists t r, t 0%nat = o /\ t n = o' /\ trajectory newton (rebooted rsg chim compute N with_rsg) interval n t r /\
  length (r_X res) = length (r_Y res) /\
  forall k, (k < length (r_Y res))%nat -> exists i j, in_window last_n n i /\ efficient (o_Y (t i)) j /\
    nth k (r_Y res) [] = nth j (o_Y (t i)) [] /\ nth k (r_X res) [] = firstn dim (nth j (o_X (t i)) []).
Proof.
  intros newton rsg chim compute lof kmedoids dim N interval with_rsg n last_n o res o' m Hw Ho E. apply bootstrap_inv in E.
  destruct E as (Hn & Hi & t & r & f & ix & T0 & T1 & H & HR & _ & _ & Hf & Hk & HX & HY).
  pose proof (trajectory_of newton rsg chim compute N interval with_rsg t r n Hi H) as HT. exists t, r. split; auto. split; auto. split; auto.
  assert (W : forall i, (i <= n)%nat -> wf_pop m (t i)).
  { induction i as [|i IH]; intros Hin; [rewrite T0; auto|]. destruct (HT i ltac:(lia)) as (o1 & En & [[_ Hb]|[_ ->]]); [|eapply Hw; eauto; apply IH; lia].
    apply (Hw _ _ En). destruct Hb as (_ & EX & EY & _). unfold wf_pop. rewrite EX, EY. apply IH. lia. }
  assert (P : forall p, In p f -> length (fst p) = length (snd p) /\ forall k, (k < length (snd p))%nat -> exists i j, in_window last_n n i /\ efficient (o_Y (t i)) j /\
    nth_error (snd p) k = nth_error (o_Y (t i)) j /\ nth_error (fst p) k = nth_error (map (firstn dim) (o_X (t i))) j).
  { intros p Hp. apply mapM_ok in Hf. assert (Q : exists i, in_window last_n n i /\ filter_outliers lof (map (firstn dim) (o_X (t i))) (o_Y (t i)) = Ok p).
    { assert (Hin : In (Ok p) (map Ok f)) by (apply in_map; auto). rewrite <- Hf in Hin. apply in_map_iff in Hin. destruct Hin as ((x & y) & Exy & Hin). cbn [fst snd] in Exy.
      unfold last_slice in Hin. rewrite !map_length, seq_length in Hin.
      set (q := if (last_n <=? 0)%Z then Z.to_nat (- last_n) else (n - Z.to_nat last_n)%nat) in *.
      assert (Hc : In (x, y) (combine (skipn q (map (fun j => map (firstn dim) (o_X (t j))) (seq 0 n))) (skipn q (map (fun j => o_Y (t j)) (seq 0 n))))).
      { unfold q. destruct (last_n <=? 0)%Z; auto. }
      rewrite !skipn_map in Hc. assert (Hs : skipn q (seq 0 n) = seq q (n - q)). { clear. destruct (Nat.le_gt_cases q n) as [Hq|Hq].
        - replace n with (q + (n - q))%nat at 1 by lia. rewrite seq_app, skipn_app, seq_length, Nat.sub_diag, (skipn_all2 (seq 0 q)) by (rewrite seq_length; lia). auto.
        - rewrite skipn_all2 by (rewrite seq_length; lia). replace (n - q)%nat with 0%nat by lia. auto. }
      rewrite Hs in Hc. assert (Hcm : forall (A B : Type) (g : nat -> A) (h : nat -> B) l, combine (map g l) (map h l) = map (fun j => (g j, h j)) l). { intros A B g h l. induction l; cbn; congruence. }
      rewrite Hcm in Hc. apply in_map_iff in Hc. destruct Hc as (i & Ei & Hc). injection Ei as <- <-. apply in_seq in Hc. exists i. split; auto.
      unfold in_window. unfold q in Hc. destruct (last_n <=? 0)%Z eqn:El; [apply Z.leb_le in El|apply Z.leb_gt in El]; lia. }
    destruct Q as (i & Hwin & Ef). destruct p as [X' Y']. destruct (W i) as [L1 L2]. { destruct Hwin. lia. }
    apply (filter_outliers_ok lof _ _ _ _ m L2) in Ef; [|rewrite map_length; auto]. destruct Ef as [L3 Ef]. cbn [fst snd]. split; auto.
    intros k Hkl. destruct (Ef k Hkl) as (j & He & E1 & E2). exists i, j. auto. }
  destruct (concat_pairs f ltac:(intros p Hp; apply P; auto)) as [LC C]. apply take_rows_inv in HX, HY. destruct HX as [LX HX], HY as [LY HY]. split; [lia|].
  intros k Hkl. rewrite LY in Hkl. destruct (HX k Hkl) as [EX _]. destruct (HY k Hkl) as [EY HB]. destruct (C _ HB) as (p & q & Hp & Hq & E1 & E2).
  destruct (proj2 (P p Hp) q Hq) as (i & j & Hwin & He & E3 & E4). exists i, j. split; auto. split; auto.
  assert (EYY : nth_error (r_Y res) k = nth_error (o_Y (t i)) j) by congruence. assert (EXX : nth_error (r_X res) k = nth_error (map (firstn dim) (o_X (t i))) j) by congruence.
  split.
  - rewrite <- !nth_default_eq. unfold nth_default. rewrite EYY. auto.
  - rewrite <- !nth_default_eq. unfold nth_default. rewrite EXX, nth_error_map. destruct (nth_error (o_X (t i)) j) eqn:Ej; cbn; auto. rewrite firstn_nil. auto.
Qed.
Print Assumptions C108_rows.
(** as many as the clustering returns medoids *)
Theorem C108_size : forall newton rsg chim compute lof kmedoids dim N interval with_rsg n last_n o res o',
  (forall Y N ix, kmedoids Y N = Ok ix -> length ix = N) ->
  bootstrap newton rsg chim compute lof kmedoids dim N interval with_rsg (Some n) last_n o = Ok (res, o') -> length (r_X res) = N /\ length (r_Y res) = N.
Proof.
  intros newton rsg chim compute lof kmedoids dim N interval with_rsg n last_n o res o' Hk E. apply bootstrap_inv in E.
  destruct E as (Hn & Hi & t & r & f & ix & _ & _ & _ & _ & _ & _ & _ & Ek & HX & HY). apply Hk in Ek. apply take_rows_inv in HX, HY. lia.
Qed.
Print Assumptions C108_size.
(** the population after the last iteration is never considered, even if it is better than everything returned *)
Theorem C108_last_population_refuted : exists res o', ex_run ex_newton 1 2 3 ex_opt = Ok (res, o') /\ forall y z, In y (o_Y o') -> In z (r_Y res) -> better y z.
Proof.
  eexists. eexists. split; [cbv -[Rplus Rminus Rmult Rdiv IZR INR Rinv Q2R]; reflexivity|]. cbn [o_Y r_Y]. intros y z [<-|[]] [<-|[]]. repeat constructor; lra.
Qed.
Print Assumptions C108_last_population_refuted.
(** two equal points in a population of the window: the whole run is lost *)
Theorem C108_duplicates_refuted : forall x y, ex_run (fun o => Ok o) 1 2 3 (mkOpt [x; x] [y; y] ex_rs (WithBeta (/ 4))) = Exn IndexError.
Proof.
  intros x y. unfold ex_run, bootstrap. cbn [loop]. change (due 1 0) with false. change (due 1 1) with true. cbn [Z.eqb]. cbv iota. cbn [bind o_X o_Y l_X l_Y l_ref reboot new_refset o_ind map snd fst app].
  cbn [loop bind]. unfold filtered. cbn [l_X l_Y]. unfold last_slice. cbn [length Z.leb Z.compare Z.to_nat Pos.to_nat Pos.iter_op Nat.add Nat.sub skipn combine mapM fst snd].
  assert (E : get_non_dominated_idx (fun _ _ => false) true [y; y] = Exn IndexError).
  { unfold get_non_dominated_idx. cbn [length seq filter]. unfold gnd_cond. cbn [nth firstn skipn forallb].
    assert (K : some_worse y y = false). { unfold some_worse. clear x. induction y as [|a y IH]; auto. cbn. rewrite IH, orb_false_r. apply nltb_false. lra. }
    rewrite K. auto. }
  change (Pos.to_nat 3) with 3%nat. cbn [skipn combine mapM fst snd]. unfold filter_outliers. rewrite E. auto.
Qed.
Print Assumptions C108_duplicates_refuted.
Example C108_meets : (forall o o', ex_newton o = Ok o' -> wf_pop 2 o -> wf_pop 2 o') /\ wf_pop 2 ex_opt /\ exists res o', ex_run ex_newton 2 4 3 ex_opt = Ok (res, o') /\ r_X res = [[7]].
Proof.
  split. { intros o o' E [H1 H2]. injection E as <-. split; cbn; [rewrite map_length; auto|]. intros y Hy. apply in_map_iff in Hy. destruct Hy as (z & <- & Hz). rewrite map_length. auto. }
  split. { split; auto. intros y [<-|[]]. auto. }
  eexists. eexists. split; [cbv -[Rplus Rminus Rmult Rdiv IZR INR Rinv Q2R]; reflexivity|]. reflexivity.
Qed.
