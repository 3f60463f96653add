(** Property theorems: Monte-Carlo hypervolume, survival, dynamic hypervolume, MOEA/D, pymoo factory. *)
From Coq Require Import String List Arith Bool Reals ZArith Lia Lra.
From Verif Require Import Num Exn ListAux NewtonModel RefModel RefProof ProbModel ProbProof MoeaModel MoeaSpec MoeaProof MoeaTop.
Import ListNotations.
Open Scope R_scope.

(** * C49 *)
(** hypervolume and contributions are box volume times the fraction of the samples *)
Theorem C49_estimates_partial : forall m ref F S st, rect m F -> rect m S -> (0 < length S)%nat -> mc_calc 1 ref F S = Ok st ->
  (exists lo, is_ideal m F lo /\ m_V st = volume lo ref) /\
  (exists c, counts (fun s => exists i, (i < length F)%nat /\ weakly (nth i F []) (nth s S [])) (length S) c /\ m_hv st = Fin (m_V st * INR c / INR (length S))) /\
  length (m_hvc st) = length F /\
  (forall i, (i < length F)%nat -> exists c,
     counts (fun s => weakly (nth i F []) (nth s S []) /\ forall j, (j < length F)%nat -> j <> i -> ~ weakly (nth j F []) (nth s S [])) (length S) c /\
     nth_error (m_hvc st) i = Some (Fin (m_V st * INR c / INR (length S)))).
Proof.
  intros m ref F S st HF HS Hn E. destruct (mc_calc_inv ref m F S st HF E Hn) as ((D & L & H1 & H2) & EF & ED & Hlo). rewrite ED in *.
  rewrite hv_mc_ok in H1 by auto. rewrite hvc_mc_ok in H2 by auto. injection H1 as H1. injection H2 as H2. split; auto. split; [|split].
  - eexists. split; [apply (hv_counts m); auto|]. auto.
  - rewrite <- H2, map_length. unfold dom_matrix. apply map_length.
  - intros i Hi. eexists. split; [apply (hvc_counts m); auto|]. rewrite <- H2. rewrite (map_nth_error _ i (dom_matrix F S) (d := nth i (dom_matrix F S) [])); auto. apply nth_error_nth'. unfold dom_matrix. rewrite map_length. auto.
Qed.
Print Assumptions C49_estimates_partial.
(** the calculation succeeds for every non-empty point set *)
Theorem C49_succeeds : forall k ref F S, F <> [] -> exists st, mc_calc k ref F S = Ok st.
Proof.
  intros k ref F S H. unfold mc_calc. destruct F as [|f t]; [congruence|]. cbn [ideal bind]. set (F := f :: t). set (V := box_volume _ _).
  unfold hv_monte_carlo. rewrite row_sums_ok by (first [apply dom_rows|apply alpha_length]). cbn [bind]. destruct (hvc_mc_total (length S) (dom_matrix F S) V k (dom_rows F S)) as (c & -> & _). cbn [bind]. eauto.
Qed.
Print Assumptions C49_succeeds.
(** after any deletions the stored value is what the estimator gives for the remaining points on the same samples *)
Theorem C49_deletions : forall m ref F S st ks st', rect m F -> (0 < length S)%nat -> mc_calc 1 ref F S = Ok st -> mc_deletes (length S) 1 st ks = Ok st' ->
  hv_monte_carlo (length S) (m_dom st') (m_V st) = Ok (m_hv st') /\ hvc_monte_carlo (length S) (m_dom st') (m_V st) 1 = Ok (m_hvc st').
Proof.
  intros m ref F S st ks st' HF HS E ED. destruct (mc_calc_inv ref m F S st HF E HS) as (I & _). destruct (mc_deletes_inv _ _ _ _ HS I ED) as ((_ & _ & H1 & H2) & EV). rewrite EV in *. auto.
Qed.
Print Assumptions C49_deletions.
(** one deletion removes the same row from the points and from the domination matrix *)
Theorem C49_delete_rows : forall m ref F S st ks st1 k, rect m F -> (0 < length S)%nat -> mc_calc 1 ref F S = Ok st -> mc_deletes (length S) 1 st ks = Ok st1 ->
  (forall st2, mc_delete (length S) 1 st1 k = Ok st2 -> exists i, index_of (length (m_F st1)) k i /\ without i (m_F st1) (m_F st2) /\ without i (m_dom st1) (m_dom st2)) /\
  ((exists i, index_of (length (m_F st1)) k i) -> exists st2, mc_delete (length S) 1 st1 k = Ok st2).
Proof.
  intros m ref F S st ks st1 k HF HS E ED. destruct (mc_calc_inv ref m F S st HF E HS) as (I & _). destruct (mc_deletes_inv _ _ _ _ HS I ED) as (I1 & _). split.
  - intros st2 E2. destruct (mc_delete_inv _ _ _ _ HS I1 E2) as (_ & _ & H). auto.
  - intros H. apply mc_delete_total; auto.
Qed.
Print Assumptions C49_delete_rows.
(** with more than one exclusive point the subtraction is wrong *)
Theorem C49_exclusive_refuted : exists ref F S st st', mc_calc 2 ref F S = Ok st /\ mc_delete (length S) 2 st 0 = Ok st' /\
  exists a b, hv_monte_carlo (length S) (m_dom st') (m_V st) = Ok (Fin a) /\ m_hv st' = Fin b /\ b < a.
Proof.
  assert (D : dom_matrix [[0]; [0]] [[/ 2]] = [[true]; [true]]).
  { unfold dom_matrix, rowle. cbn [map combine forallb fst snd]. unfold rleb. destruct (Rle_dec 0 (/ 2)); [reflexivity|lra]. }
  assert (A : forall k, alpha 2 k = [0; 1 / 1; ((k - 1) / (2 - 1) * 1) / 2]) by (intros; unfold alpha; simpl; repeat f_equal; lra).
  exists [1], [[0]; [0]], [[/ 2]]. unfold mc_calc. cbn [ideal fold_left combine map fst snd bind length]. rewrite D. set (V := box_volume _ _).
  assert (HV : V = 1) by (unfold V, box_volume; cbn [combine map fold_right fst snd]; rewrite Rmin_left by lra; lra). clearbody V. subst V.
  unfold hv_monte_carlo at 1. unfold hvc_monte_carlo at 1. rewrite !row_sums_ok by (first [repeat constructor|apply alpha_length]). cbn [bind length]. change (1 =? 0)%nat with false. cbv iota.
  destruct (hvc_mc_total 1 [[true]] 1 2) as (c & Ec & _); [repeat constructor|].
  eexists. eexists. split; [reflexivity|]. unfold mc_delete. cbn [m_F m_dom m_hvc m_hv m_V]. cbn -[hvc_monte_carlo hv_monte_carlo row_sum alpha rsum INR]. 
  rewrite Ec. cbn [bind]. split; [reflexivity|]. cbn [m_dom m_hv m_V]. rewrite hv_mc_ok by (try lia; repeat constructor).
  eexists. eexists. split; [reflexivity|]. split; [reflexivity|]. simpl. unfold row_sum, nd. simpl. lra.
Qed.
Print Assumptions C49_exclusive_refuted.
(** the weights for [k] exclusive points: [i] times weight [i] is the number of ways to choose the points removed
    besides one of [i] given points so that they contain the other [i - 1], relative to all choices *)
Theorem C49_weights : forall N k i, (1 <= k <= N)%nat -> (1 <= i <= N)%nat ->
  INR i * nth i (alpha N (INR k)) 0 * C (N - 1) (k - 1) = if (i <=? k)%nat then C (N - i) (k - i) else 0.
Proof.
  intros N k i Hk Hi. rewrite <- comb_C by lia. rewrite alpha_general by auto. destruct (Nat.leb_spec i k); auto. apply comb_C. lia.
Qed.
Print Assumptions C49_weights.
(** as written the functions are compiled by jax, which cannot allocate an array of unknown size *)
Theorem C49_compiled_refuted : forall ns dom V, hv_monte_carlo_traced ns dom V = Exn TypeError.
Proof. reflexivity. Qed.
Print Assumptions C49_compiled_refuted.
Example C49_case : rect 2 [[0; 1]; [1; 0]] /\ rect 2 [[2; 2]; [0; 2]; [0; 0]] /\ weakly [0; 1] [0; 2] /\ ~ weakly [1; 0] [0; 2].
Proof. split; [repeat constructor|]. split; [repeat constructor|]. split; [repeat constructor; lra|]. intros H. inversion H; subst. lra. Qed.

(** * C50 *)
(** [fronts] come from the non-dominated sorting, [contrib q h] are the contributions of the points left in front
    [q] after the removals [h] *)
Theorem C50_survive : forall contrib n fronts, NoDup (concat fronts) ->
  (forall q h, (q < length fronts)%nat -> (length h <= length (nth q fronts []))%nat -> (length (contrib q h) + length h = length (nth q fronts []))%nat) ->
  exists out, survive contrib (Some n) fronts = Ok out /\ length out = Nat.min n (length (concat fronts)) /\ NoDup out /\
    exists r part, out = concat (firstn r fronts) ++ part /\ incl part (nth r fronts []).
Proof.
  intros contrib n fronts Hnd Hc. destruct (survive_loop_spec contrib n (concat fronts) fronts 0 []) as (out & E & L & N & r & part & Ep & Ip); auto.
  - simpl. lia.
  - apply incl_refl.
  - exists out. split; auto. split; auto. split; auto. exists r, part. auto.
Qed.
Print Assumptions C50_survive.
(** the sorting stops once [n] points are ranked, or ranks the whole population *)
Theorem C50_size : forall contrib n N fronts, NoDup (concat fronts) -> (forall i, In i (concat fronts) -> (i < N)%nat) ->
  (n <= length (concat fronts))%nat \/ (forall i, (i < N)%nat -> In i (concat fronts)) ->
  (forall q h, (q < length fronts)%nat -> (length h <= length (nth q fronts []))%nat -> (length (contrib q h) + length h = length (nth q fronts []))%nat) ->
  exists out, survive contrib (Some n) fronts = Ok out /\ length out = Nat.min n N /\ NoDup out /\ forall i, In i out -> (i < N)%nat.
Proof.
  intros contrib n N fronts Hnd HN Hc H. destruct (C50_survive contrib n fronts Hnd H) as (out & E & L & Nd & r & part & Ep & Ip). exists out. split; auto.
  assert (Hle : (length (concat fronts) <= N)%nat). { rewrite <- (seq_length N 0). apply NoDup_incl_length; auto. intros i Hi. apply in_seq. apply HN in Hi. lia. }
  split; [|split; auto].
  - rewrite L. destruct Hc as [Hc|Hc]; [lia|]. assert (N <= length (concat fronts))%nat; [|lia]. rewrite <- (seq_length N 0) at 1. apply NoDup_incl_length; [apply seq_NoDup|]. intros i Hi. apply in_seq in Hi. apply Hc. lia.
  - intros i Hi. apply HN. subst out. apply in_app_or in Hi. destruct Hi as [Hi|Hi].
    + apply in_concat in Hi. destruct Hi as (f & Hf & Hi). apply in_concat. exists f. split; auto. rewrite <- (firstn_skipn r fronts). apply in_or_app. auto.
    + apply Ip in Hi. apply in_concat. exists (nth r fronts []). split; auto. destruct (Nat.lt_ge_cases r (length fronts)); [apply nth_In; auto|]. rewrite nth_overflow in Hi by auto. destruct Hi.
Qed.
Print Assumptions C50_size.
(** every removal takes a point of least contribution *)
Theorem C50_removal : forall fuel contrib n have h front out, (n < have + length front)%nat -> shrink fuel contrib n have h front = Ok out ->
  exists k a x b, front = a ++ x :: b /\ length a = k /\ (k < length (contrib h))%nat /\
    ((forall v, In v (contrib h) -> v <> NaN) -> forall v, In v (contrib h) -> fle (nth k (contrib h) NaN) v = true) /\
    exists fuel', shrink fuel' contrib n have (k :: h) (a ++ b) = Ok out.
Proof.
  intros fuel contrib n have h front out Hlt E. destruct fuel as [|fuel]; cbn [shrink] in E; replace (n <? have + length front)%nat with true in E by (symmetry; apply Nat.ltb_lt; auto); [discriminate|].
  destruct (np_argmin (contrib h)) as [k|] eqn:Ek; [|discriminate]. cbn [bind] in E. destruct (np_delete front (Z.of_nat k)) as [f1|] eqn:Ef; [|discriminate]. cbn [bind] in E.
  apply argmin_spec in Ek. destruct Ek as [Hk Hm]. apply np_delete_ok in Ef. destruct Ef as (i & [Hi Hi2] & a & x & b & -> & -> & La). exists k, a, x, b. split; auto. split; [lia|]. split; auto. split; auto. eauto.
Qed.
Print Assumptions C50_removal.
(** without a number of survivors the comparison fails *)
Theorem C50_no_number : forall contrib fronts, fronts <> [] -> survive contrib None fronts = Exn TypeError.
Proof. intros contrib [|f t] H; [congruence|]. reflexivity. Qed.
Print Assumptions C50_no_number.
Example C50_case : survive (fun q h => match h with [] => [Fin 1; Fin 0; Fin 2] | [_] => [Fin 1; Fin 2] | [_; _] => [Fin 2] | _ => [] end) (Some 1%nat) [[4; 7; 2]%nat] = Ok [2%nat].
Proof.
  cbn. unfold flt, fle, rleb. repeat (match goal with |- context[Rle_dec ?a ?b] => destruct (Rle_dec a b); try lra end; cbn). reflexivity.
Qed.

(** * C68: tournament *)
Theorem C68_tournament : forall pop coin a b s, tourn1 pop coin a b = Ok s -> exists ia ib, nth_error pop a = Some ia /\ nth_error pop b = Some ib /\ (s = a \/ s = b) /\
  (length (i_f ia) = length (i_f ib) -> 0 <= i_cv ia -> 0 <= i_cv ib ->
   (i_cv ia < i_cv ib -> s = a) /\ (i_cv ib < i_cv ia -> s = b) /\
   (i_cv ia = 0 -> i_cv ib = 0 -> (pdom (i_f ia) (i_f ib) -> s = a) /\ (pdom (i_f ib) (i_f ia) -> s = b))).
Proof. exact tourn1_spec. Qed.
Print Assumptions C68_tournament.
Theorem C68_all : forall pop P coins, (forall r, In r P -> length r = 2%nat /\ forall i, In i r -> (i < length pop)%nat) ->
  exists out, tournament_loop pop coins P = Ok out /\ length out = length P /\ forall t r s, nth_error P t = Some r -> nth_error out t = Some s -> In s r.
Proof.
  intros pop. induction P as [|r P IH]; intros coins H; cbn [tournament_loop].
  - exists []. split; auto. split; auto. intros [|t] r s Hr; discriminate.
  - destruct (H r (or_introl eq_refl)) as [Hl Hi]. destruct r as [|a [|b [|]]]; try discriminate.
    destruct (IH (tl coins) (fun r Hr => H r (or_intror Hr))) as (out & E & L & Hin). assert (T : exists s, tourn1 pop (hd true coins) a b = Ok s).
    { unfold tourn1, nth_res. destruct (nth_error pop a) eqn:Ea; [|apply nth_error_None in Ea; specialize (Hi a ltac:(simpl; auto)); lia]. destruct (nth_error pop b) eqn:Eb; [|apply nth_error_None in Eb; specialize (Hi b ltac:(simpl; auto)); lia]. cbn [bind]. eauto. }
    destruct T as (s & Es). rewrite Es, E. cbn [bind]. exists (s :: out). split; auto. split; [simpl; lia|].
    intros [|t] r s' Hr Hs; cbn [nth_error] in *; [|eapply Hin; eauto]. injection Hr as <-. injection Hs as <-. destruct (tourn1_spec _ _ _ _ _ Es) as (_ & _ & _ & _ & [->| ->] & _); simpl; auto.
Qed.
Print Assumptions C68_all.
Theorem C68_shape : forall pop coins r P, length r <> 2%nat -> tournament_loop pop coins (r :: P) = Exn ValueError.
Proof. intros pop coins [|a [|b [|c r]]] P H; simpl in *; auto; lia. Qed.
Print Assumptions C68_shape.
Example C68_case : pdom [0; 1] [0; 2] /\ ~ pdom [0; 1] [0; 1].
Proof. split; [split; [repeat constructor; lra|intros E; injection E; lra]|intros [_ H]; auto]. Qed.

(** * C69: one generation of SMS-EMOA *)
(** the sorting ranks at least [n] individuals or all, none twice; there is one contribution for each remaining point *)
Definition sorting_ok {A} (n : nat) (fronts : list A -> list (list nat)) : Prop := forall M : list A,
  NoDup (concat (fronts M)) /\ (forall i, In i (concat (fronts M)) -> (i < length M)%nat) /\
  ((n <= length (concat (fronts M)))%nat \/ (forall i, (i < length M)%nat -> In i (concat (fronts M)))).
Definition contrib_ok {A} (fronts : list A -> list (list nat)) (contrib : option (list R * list R) -> list A -> nat -> list nat -> list fl) : Prop :=
  forall bd M q h, (q < length (fronts M))%nat -> (length h <= length (nth q (fronts M) []))%nat -> (length (contrib bd M q h) + length h = length (nth q (fronts M) []))%nat.
(** the new population: different members of parents and offspring, as many as [pop_size] *)
Theorem C69_advance_partial : forall (A : Type) normalize Fo fronts contrib n (pop infills : list A), sorting_ok n fronts -> contrib_ok fronts contrib -> pop <> [] ->
  exists out idx, advance normalize Fo fronts contrib n pop (Some infills) = Ok out /\ length out = Nat.min n (length pop + length infills) /\
    NoDup idx /\ map (nth_error (pop ++ infills)) idx = map Some out.
Proof.
  intros A nz Fo fronts contrib n pop inf HS HC Hp. unfold advance.
  assert (Hb : exists bd, boundary nz Fo pop = Ok bd). { unfold boundary. destruct nz; eauto. destruct pop as [|p pop]; [congruence|]. cbn [map ideal worst bind]. eauto. }
  destruct Hb as (bd & ->). cbn [bind]. destruct (HS (pop ++ inf)) as (H1 & H2 & H3).
  destruct (C50_size (contrib bd (pop ++ inf)) n _ _ H1 H2 H3 (HC bd (pop ++ inf))) as (idx & E & L & N & B). rewrite E. cbn [bind].
  destruct (mapM_total (nth_res IndexError (pop ++ inf)) idx) as (out & Eo).
  { intros i Hi. apply B in Hi. unfold nth_res. destruct (nth_error (pop ++ inf) i) as [a|] eqn:En; eauto. apply nth_error_None in En. lia. }
  exists out, idx. split; auto. split; [rewrite (mapM_length _ _ _ Eo), L, app_length; auto|]. split; auto.
  clear -Eo. revert out Eo. induction idx as [|i idx IH]; intros out Eo; cbn [mapM] in Eo; [injection Eo as <-; auto|].
  destruct (nth_res IndexError (pop ++ inf) i) as [a|] eqn:En; [|discriminate]. cbn [bind] in Eo. destruct (mapM _ idx) as [o|]; [|discriminate]. cbn [bind] in Eo. injection Eo as <-. cbn [map]. rewrite (IH o eq_refl). f_equal. apply nth_res_ok in En. auto.
Qed.
Print Assumptions C69_advance_partial.
(** the boundary points of the normalisation are those of the parents *)
Theorem C69_boundary : forall (A : Type) Fo (pop : list A) m bd, rect m (map Fo pop) -> boundary true Fo pop = Ok bd ->
  exists lo hi, bd = Some (lo, hi) /\ is_ideal m (map Fo pop) lo /\ length hi = m /\ forall j, (j < m)%nat ->
    (forall a, In a pop -> nth j (Fo a) 0 < nth j hi 0) /\ (exists a, In a pop /\ nth j hi 0 = nth j (Fo a) 0 + / 10 ^ 32).
Proof.
  intros A Fo pop m bd HR E. unfold boundary in E. assert (He : 0 < / 10 ^ 32) by (apply Rinv_0_lt_compat, pow_lt; lra). set (e := / 10 ^ 32) in *. clearbody e. destruct (ideal (map Fo pop)) as [lo|] eqn:El; [|discriminate]. cbn [bind] in E. destruct (worst (map Fo pop)) as [hi|] eqn:Eh; [|discriminate]. cbn [bind] in E. injection E as <-.
  exists lo. eexists. split; [reflexivity|]. split; [eapply ideal_spec; eauto|]. destruct (worst_spec m _ _ HR Eh) as [Lh Hh]. rewrite map_length. split; auto. intros j Hj. specialize (Hh j Hj). destruct Hh as [H1 (f & Hf & H2)].
  rewrite (nth_map_default (fun v => v + e) hi j 0 0) by lia. split.
  - intros a Ha. specialize (H1 (Fo a) (in_map Fo _ _ Ha)). lra.
  - apply in_map_iff in Hf. destruct Hf as (a & <- & Ha). exists a. split; auto. rewrite H2. auto.
Qed.
Print Assumptions C69_boundary.
Theorem C69_no_infills_refuted : forall (A : Type) normalize Fo fronts contrib n (pop : list A), pop <> [] -> advance normalize Fo fronts contrib n pop None = Exn UnboundLocalError.
Proof. intros A [|] Fo fronts contrib n [|p pop] H; try congruence; reflexivity. Qed.
Print Assumptions C69_no_infills_refuted.
Example C69_case : advance false (fun x => [INR x]) (fun M => [seq 0 (length M)]) (fun _ M _ h => repeat (Fin 0) (length M - length h)) 2 [5; 6]%nat (Some [7]%nat) = Ok [6; 7]%nat /\
  sorting_ok 2 (fun M : list nat => [seq 0 (length M)]) /\ contrib_ok (fun M : list nat => [seq 0 (length M)]) (fun _ M _ h => repeat (Fin 0) (length M - length h)).
Proof.
  split; [|split].
  - cbn. unfold flt, fle, rleb. repeat (match goal with |- context[Rle_dec ?a ?b] => destruct (Rle_dec a b); try lra end; cbn). reflexivity.
  - intros M. cbn [concat]. rewrite app_nil_r. split; [apply seq_NoDup|]. split; [intros i Hi; apply in_seq in Hi; lia|]. right. intros i Hi. apply in_seq. lia.
  - intros bd M q h Hq. cbn [length] in Hq. replace q with 0%nat by lia. cbn [nth]. rewrite repeat_length, seq_length. lia.
Qed.

(** * C52 *)
Section C52.
Context {H Cc : Type}.
Variable z : H.
Variable zc : Cc.
Variable fhv : option (list (list R) -> res H).
Variable fhvc : option (list (list R) -> res Cc).
Variable n : nat.
(** what an operation is meant to do to the points *)
Definition effect (o : dop) (F F' : list (list R)) : Prop :=
  match o with Add w A => w = n /\ F' = F ++ A | Delete k => exists i, index_of (length F) k i /\ without i F F' end.
(** the stored values are those of the functions *)
Definition current {A} (f : option (list (list R) -> res A)) (F : list (list R)) (v : option A) : Prop :=
  match f with Some g => exists x, g F = Ok x /\ v = Some x | None => v = None end.
Lemma recalc_spec s F s' e : dyn_recalc fhv fhvc s F = (s', e) -> d_F s' = F /\ (e = None -> current fhv F (d_hv s') /\ current fhvc F (d_hvc s')) /\
  (e <> None -> d_hv s' = d_hv s /\ d_hvc s' = d_hvc s /\ ((exists g x, fhv = Some g /\ g F = Exn x) \/ (exists g x, fhvc = Some g /\ g F = Exn x))).
Proof.
  unfold dyn_recalc, dyn_calc, opt_call, current. destruct fhv as [g|]; [destruct (g F) as [a|x] eqn:Eg|]; cbn [bind]; (destruct fhvc as [g'|]; [destruct (g' F) as [b|x'] eqn:Eg'|]); cbn [bind]; intros E; injection E as <- <-; cbn [d_F d_hv d_hvc];
    (split; [auto|split; [first [discriminate|intros _; split; eauto]|first [congruence|intros _; split; [auto|split; [auto|first [left; eauto; fail|right; eauto; fail]]]]]]).
Qed.
Theorem C52_step : forall s o s' e, dyn_step fhv fhvc n s o = (s', e) ->
  (e = None -> effect o (d_F s) (d_F s') /\ current fhv (d_F s') (d_hv s') /\ current fhvc (d_F s') (d_hvc s')) /\
  (e <> None -> s' = s \/ (effect o (d_F s) (d_F s') /\ ((exists g x, fhv = Some g /\ g (d_F s') = Exn x) \/ (exists g x, fhvc = Some g /\ g (d_F s') = Exn x)))).
Proof.
  intros s o s' e E. destruct o as [w A|k]; cbn [dyn_step] in E.
  - unfold dyn_add in E. destruct (Nat.eqb_spec w n) as [->|Hne].
    + destruct (recalc_spec _ _ _ _ E) as (HF & H1 & H2). rewrite HF. split; [intros He; split; [split; auto|apply H1; auto]|]. intros He. right. split; [split; auto|apply H2; auto].
    + injection E as <- <-. split; [discriminate|auto].
  - unfold dyn_delete in E. destruct (Z.ltb_spec k (Z.of_nat (length (d_F s)))).
    + destruct (np_delete (d_F s) k) as [F|x] eqn:Ed.
      * apply np_delete_ok in Ed. destruct (recalc_spec _ _ _ _ E) as (HF & H1 & H2). rewrite HF. split; [intros He; split; [exact Ed|apply H1; auto]|]. intros He. right. split; [exact Ed|apply H2; auto].
      * injection E as <- <-. split; [discriminate|auto].
    + injection E as <- <-. split; [discriminate|auto].
Qed.
(** the net result of a sequence of operations *)
Fixpoint net (os : list dop) (F F' : list (list R)) : Prop :=
  match os with [] => F' = F | o :: t => exists F1, effect o F F1 /\ net t F1 F' end.
Theorem C52_sequence_partial : forall os s s' es, dyn_run fhv fhvc n s os = (s', es) -> Forall (fun e => e = None) es ->
  net os (d_F s) (d_F s') /\ (os <> [] -> current fhv (d_F s') (d_hv s') /\ current fhvc (d_F s') (d_hvc s')).
Proof.
  induction os as [|o os IH]; intros s s' es E Hes; cbn [dyn_run] in E; [injection E as <- <-; split; [reflexivity|congruence]|].
  destruct (dyn_step fhv fhvc n s o) as [s1 e1] eqn:E1. destruct (dyn_run fhv fhvc n s1 os) as [s2 es2] eqn:E2. injection E as <- <-. inversion Hes; subst.
  destruct (C52_step _ _ _ _ E1) as [H1 _]. destruct (H1 eq_refl) as (He & C1 & C2). destruct (IH _ _ _ E2 ltac:(auto)) as [N Cu]. split; [exists (d_F s1); auto|]. intros _. destruct os as [|o' os']; [|apply Cu; discriminate]. injection E2 as <- <-. auto.
Qed.
(** the initial state: no points, zero values whatever the functions say *)
Theorem C52_initial : d_F (dyn_init z zc) = [] /\ d_hv (dyn_init z zc) = Some z /\ d_hvc (dyn_init z zc) = Some zc.
Proof. auto. Qed.
End C52.
Print Assumptions C52_step.
Print Assumptions C52_sequence_partial.
Theorem C52_initial_refuted : exists (fhv : option (list (list R) -> res R)) (fhvc : option (list (list R) -> res (list R))),
  ~ current fhv (d_F (dyn_init 0 (@nil R))) (d_hv (dyn_init 0 (@nil R))).
Proof. exists None, None. intros E. discriminate. Qed.
Print Assumptions C52_initial_refuted.
(** if a function raises, the points are changed but the values are not *)
Theorem C52_stale_refuted : exists (fhv : option (list (list R) -> res R)) n s o s' e, dyn_step fhv (None : option (list (list R) -> res (list R))) n s o = (s', e) /\
  current fhv (d_F s) (d_hv s) /\ d_F s' <> d_F s /\ d_hv s' = d_hv s /\ ~ current fhv (d_F s') (d_hv s').
Proof.
  set (f := fun F : list (list R) => match F with [] => @Exn R ValueError | r :: _ => Ok (nth 0 r 0) end).
  exists (Some f), 1%nat, (mkDyn [[1]] (Some 1) None), (Delete 0%Z). eexists. eexists. split; [reflexivity|]. cbn. split; [exists 1; auto|]. split; [discriminate|]. split; auto. intros (x & Hx & _). discriminate.
Qed.
Print Assumptions C52_stale_refuted.
Example C52_case : dyn_run (Some (fun F => Ok (INR (length F)))) (Some (fun F => Ok (length F))) 1 (dyn_init 0 0%nat) [Add 1 [[1]; [2]; [3]]; Delete (-1); Delete 5; Add 2 [[1; 2]]]
  = (mkDyn [[1]; [2]] (Some (INR 2)) (Some 2%nat), [None; None; Some AssertionError; Some AssertionError]).
Proof. reflexivity. Qed.

(** * C55 *)
Theorem C55_eps : forall p m t, 0 < p -> 0 <= m -> 0 <= t -> exists e, cv_eps p (Some m) (Some t) = Ok e /\ 0 <= e <= m /\ (p <= t -> e = 0) /\ (t = 0 -> e = m).
Proof.
  intros p m t Hp Hm Ht. unfold cv_eps. unfold reqb. destruct (Req_EM_T p 0); [lra|]. eexists. split; [reflexivity|].
  assert (Hq : 1 / p * t = t / p) by (unfold Rdiv; ring). rewrite Hq. assert (0 <= t / p) by (apply Rmult_le_pos; [auto|apply Rlt_le, Rinv_0_lt_compat; auto]).
  assert (0 <= Rmax 0 (1 - t / p) <= 1) by (split; [apply Rmax_l|apply Rmax_lub; lra]). split; [split; [apply Rmult_le_pos; tauto|rewrite <- (Rmult_1_l m) at 2; apply Rmult_le_compat_r; tauto]|]. split.
  - intros Hpt. assert (1 <= t / p). { apply (Rmult_le_reg_r p); auto. unfold Rdiv. rewrite Rmult_assoc, Rinv_l by lra. lra. } rewrite Rmax_left by lra. ring.
  - intros ->. unfold Rdiv. rewrite Rmult_0_l, Rmax_right by lra. ring.
Qed.
Print Assumptions C55_eps.
Theorem C55_monotone : forall p m t t' e e', 0 < p -> 0 <= m -> t <= t' -> cv_eps p (Some m) (Some t) = Ok e -> cv_eps p (Some m) (Some t') = Ok e' -> e' <= e.
Proof.
  intros p m t t' e e' Hp Hm Ht. unfold cv_eps, reqb. destruct (Req_EM_T p 0); [discriminate|]. intros E E'. injection E as <-. injection E' as <-. apply Rmult_le_compat_r; auto.
  apply Rle_max_compat_l. assert (1 / p * t <= 1 / p * t') by (apply Rmult_le_compat_l; auto; unfold Rdiv; rewrite Rmult_1_l; apply Rlt_le, Rinv_0_lt_compat; auto). lra.
Qed.
Print Assumptions C55_monotone.
(** without constraints or before the first generation there is no tolerance; without a budget it ends at perc <= 1 *)
Theorem C55_other_cases : forall p m, (forall t, cv_eps p None t = Ok 0) /\ (0 < p <= 1 -> cv_eps p (Some m) None = Ok 0) /\ (forall t, cv_eps 0 (Some m) t = Exn ZeroDivisionError).
Proof.
  intros p m. split; auto. split.
  - intros Hp. unfold cv_eps, reqb. destruct (Req_EM_T p 0); [lra|]. rewrite Rmax_left; [f_equal; ring|]. assert (1 <= / p). { rewrite <- Rinv_1 at 1. apply Rinv_le_contravar; lra. } unfold Rdiv. lra.
  - intros t. unfold cv_eps, reqb. destruct (Req_EM_T 0 0); [auto|congruence].
Qed.
Print Assumptions C55_other_cases.
(** one call is one generation, unless the run ends *)
Theorem C55_next : forall (A : Type) (step : A -> A) has_next is_init n_gen fuel s s',
  (forall s, n_gen (step s) = n_gen s \/ n_gen (step s) = S (n_gen s)) -> is_init s = true -> next step has_next is_init n_gen fuel s = Ok s' ->
  n_gen s' = S (n_gen s) \/ (n_gen s' = n_gen s /\ has_next s' = false).
Proof.
  intros A step has_next is_init n_gen fuel s s' Hstep Hi E. unfold next in E. rewrite Hi in E.
  destruct (drain_spec step has_next n_gen (fun x => n_gen x = n_gen s \/ n_gen x = S (n_gen s)) fuel (n_gen s) s s') as [[P|P] Q]; auto.
  - intros x Hx _ Hg. destruct (Hstep x); lia.
  - right. split; auto. destruct Q; congruence.
Qed.
Print Assumptions C55_next.
Theorem C55_next_ends : forall (A : Type) (step : A -> A) has_next is_init n_gen fuel s,
  (exists k, (k <= fuel)%nat /\ (has_next (Nat.iter k step s) = false \/ n_gen (Nat.iter k step s) <> n_gen s)) -> exists s', next step has_next is_init n_gen fuel s = Ok s'.
Proof. intros A step has_next is_init n_gen fuel s H. unfold next. destruct (is_init s); [apply drain_total; auto|eauto]. Qed.
Print Assumptions C55_next_ends.
Example C55_case : next (fun p : nat * nat => if (snd p =? 2)%nat then (S (fst p), 0%nat) else (fst p, S (snd p))) (fun _ => true) (fun _ => true) fst 10 (5%nat, 1%nat) = Ok (6%nat, 0%nat).
Proof. reflexivity. Qed.

(** * C70: replacement in the neighbourhood *)
(** tolerated violation *)
Definition excess (eps cv : R) : R := Rmax (cv - eps) 0.
Lemma pl_iff fmax o f a b : o <= fmax -> f <= fmax -> 0 <= a -> 0 <= b ->
  parameter_less fmax o a < parameter_less fmax f b <-> a < b \/ (a = 0 /\ b = 0 /\ o < f).
Proof.
  intros H1 H2 Ha Hb. unfold parameter_less. destruct (rltb 0 a) eqn:Z1; [apply rltb_iff in Z1|apply rltb_false in Z1]; (destruct (rltb 0 b) eqn:Z2; [apply rltb_iff in Z2|apply rltb_false in Z2]).
  - split; [intros; left; lra|intros [H|H]; lra].
  - split; [intros; lra|intros [H|H]; lra].
  - split; [intros; left; lra|intros [H|H]; lra].
  - split; [intros; right; lra|intros [H|H]; lra].
Qed.
Theorem C70_replacement : forall constrained eps N FV offFV CV cv out, replaced constrained eps N FV offFV CV cv = Ok out ->
  length FV = length N -> length offFV = length N -> length CV = length N ->
  forall x, In x out <-> exists i, nth_error N i = Some x /\
    (if constrained then
       (excess eps cv < excess eps (nth i CV 0)) \/ (excess eps cv = 0 /\ excess eps (nth i CV 0) = 0 /\ nth i offFV 0 < nth i FV 0)
     else nth i offFV 0 < nth i FV 0).
Proof.
  intros constrained eps N FV offFV CV cv out E L1 L2 L3 x. destruct (replaced_mem _ _ _ _ _ _ _ _ E L1 L2 L3) as (fmax & Hmax & HI). rewrite HI.
  assert (P : forall i y, nth_error N i = Some y -> parameter_less fmax (nth i offFV 0) (excess eps cv) < parameter_less fmax (nth i FV 0) (excess eps (nth i CV 0)) <->
    (excess eps cv < excess eps (nth i CV 0)) \/ (excess eps cv = 0 /\ excess eps (nth i CV 0) = 0 /\ nth i offFV 0 < nth i FV 0)).
  { intros i y Hy. assert (Hi : (i < length N)%nat) by (apply nth_error_Some; congruence). apply pl_iff; [apply Hmax; right; apply nth_In; lia|apply Hmax; left; apply nth_In; lia|apply Rmax_r|apply Rmax_r]. }
  split; intros (i & Hx & Hc); exists i; (split; [auto|]); cbv zeta in *; destruct constrained; auto; apply (P i x Hx); exact Hc.
Qed.
Print Assumptions C70_replacement.
Theorem C70_total : forall constrained eps N FV offFV CV cv, FV <> [] -> offFV <> [] -> exists out, replaced constrained eps N FV offFV CV cv = Ok out.
Proof. intros c eps N [|f FV] [|o off] CV cv H1 H2; try congruence. eexists. reflexivity. Qed.
Print Assumptions C70_total.
Example C70_case : excess (/ 2) (1 / 4) = 0 /\ excess (/ 2) 1 = / 2.
Proof. unfold excess. split; [apply Rmax_right|rewrite Rmax_left]; lra. Qed.

(** * C54 *)
Section C54.
Variable act_err : string -> option exn.
Variable import_eff : string -> world -> world * option exn.
Variable class_err : string -> string -> option exn.
Variable build : string -> world -> world * option exn.
(** importing leaves the toolbox alone and binds the modules it loads to it; so do constructor and adapter *)
Definition import_ok : Prop :=
  (forall m w, w_toolbox (fst (import_eff m w)) = w_toolbox w) /\
  (forall m w x b, w_modules (fst (import_eff m w)) x = Some b -> w_modules w x = Some b \/ b = w_toolbox w) /\
  (forall m w, w_modules w m = None -> snd (import_eff m w) = None -> exists b, w_modules (fst (import_eff m w)) m = Some b).
Definition build_ok : Prop := forall k w, fst (build k w) = w.
End C54.
Theorem C54_restored : forall act_err import_eff class_err build, import_ok import_eff -> build_ok build ->
  forall keys w, act_err (w_toolbox w) = None ->
  w_toolbox (fst (get_problems act_err import_eff class_err build keys w)) = w_toolbox w /\
  forall x b, w_modules (fst (get_problems act_err import_eff class_err build keys w)) x = Some b -> w_modules w x = Some b \/ b = "jax.numpy"%string.
Proof. intros a i c b (H1 & H2 & H3) Hb keys w Ha. apply gets_restores; auto. Qed.
Print Assumptions C54_restored.
(** the context manager alone, for every body *)
Theorem C54_context : forall act_err body w, act_err (w_toolbox w) = None ->
  (w_toolbox w = "jax.numpy"%string -> forall w1, w_toolbox w1 = "jax.numpy"%string -> w_toolbox (fst (body w1)) = "jax.numpy"%string) ->
  w_toolbox (fst (with_jax act_err body w)) = w_toolbox w.
Proof. intros a body w Ha Hj. apply with_jax_restores; auto. Qed.
Print Assumptions C54_context.
(** an exception of the body comes through *)
Theorem C54_exception : forall act_err body w e w1, act_err (w_toolbox w) = None -> act_err "jax.numpy"%string = None ->
  body (mkW "jax.numpy" (w_modules w)) = (w1, e) -> snd (with_jax act_err body w) = e.
Proof.
  intros a body w e w1 H1 H2 E. unfold with_jax. destruct (String.eqb_spec (w_toolbox w) jax) as [Ej|Ej].
  - replace (mkW "jax.numpy" (w_modules w)) with w in E by (destruct w; unfold jax in Ej; cbn in *; congruence). rewrite E. auto.
  - unfold activate at 1. fold jax in H2. rewrite H2. fold jax in E. rewrite E. unfold activate. rewrite H1. auto.
Qed.
Print Assumptions C54_exception.
(** a problem is only created from a module bound to jax *)
Theorem C54_bound : forall act_err import_eff class_err build, import_ok import_eff -> build_ok build ->
  forall key w w', get_pymoo_problem act_err import_eff class_err build key w = (w', None) ->
  exists m c, In (key, (m, c)) registry /\ w_modules w' m = Some "jax.numpy"%string.
Proof.
  intros a i c b (H1 & H2 & H3) Hb key w w' E. unfold get_pymoo_problem in E. destruct (assoc key registry) as [[m cl]|] eqn:Ea; [|discriminate]. exists m, cl. split.
  - clear -Ea. induction registry as [|[k' v] l IH]; [discriminate|]. cbn [assoc] in Ea. destruct (String.eqb_spec key k'); [injection Ea as ->; subst; simpl; auto|]. right; auto.
  - pose proof (import_type_loaded a i c H2 H3 m cl w) as L. destruct (import_type a i c m cl w) as [w1 [e|]]; [discriminate|]. cbn [fst snd] in L. specialize (L eq_refl). pose proof (Hb key w1) as K. rewrite E in K. cbn [fst] in K. subst w'. exact L.
Qed.
Print Assumptions C54_bound.
(** unknown names and modules loaded with another toolbox *)
Theorem C54_rejected : forall act_err import_eff class_err build key w,
  ((forall v, ~ In (key, v) registry) -> get_pymoo_problem act_err import_eff class_err build key w = (w, Some ValueError)) /\
  (forall m c b, assoc key registry = Some (m, c) -> w_modules w m = Some b -> b <> "jax.numpy"%string -> get_pymoo_problem act_err import_eff class_err build key w = (w, Some RuntimeError)).
Proof.
  intros a i c b key w. unfold get_pymoo_problem. split.
  - intros H. replace (assoc key registry) with (@None (string * string)); auto. revert H. induction registry as [|[k' v] l IH]; auto. intros H. cbn [assoc]. destruct (String.eqb_spec key k'); [subst; exfalso; apply (H v); simpl; auto|]. apply IH. intros v' Hv. apply (H v'). simpl. auto.
  - intros m cl b0 -> Hm Hb. unfold import_type. rewrite Hm. destruct (String.eqb_spec b0 jax); [contradiction|]. auto.
Qed.
Print Assumptions C54_rejected.
(** every registered name is found: there are no two entries with one name *)
Theorem C54_registry : forall k v, In (k, v) registry <-> assoc k registry = Some v.
Proof.
  intros k v. split.
  - intros H. unfold registry in H. repeat (destruct H as [H|H]; [injection H as <- <-; reflexivity|]). destruct H.
  - intros Ea. induction registry as [|[k' v'] l IH]; [discriminate|]. cbn [assoc] in Ea. destruct (String.eqb_spec k k'); [injection Ea as ->; subst; simpl; auto|]. right; auto.
Qed.
Print Assumptions C54_registry.
Example C54_case : exists import_eff build, import_ok import_eff /\ build_ok build /\
  let w := mkW "numpy" (fun _ => None) in
  w_modules (fst (get_pymoo_problem (fun _ => None) import_eff (fun _ _ => None) build "dtlz2" w)) "pymoo.problems.many.dtlz"%string = Some "jax.numpy"%string /\
  snd (get_pymoo_problem (fun _ => None) import_eff (fun _ _ => Some AttributeError) build "dtlz2" w) = Some AttributeError.
Proof.
  exists (fun m w => (mkW (w_toolbox w) (upd (w_modules w) m (w_toolbox w)), None)), (fun k w => (w, None)). split; [|split; [intros k w; auto|split; reflexivity]].
  split; [auto|]. split.
  - intros m w x b. cbn [fst w_modules]. unfold upd. destruct (String.eqb x m); auto. intros E. injection E. auto.
  - intros m w _ _. cbn [fst w_modules]. unfold upd. rewrite String.eqb_refl. eauto.
Qed.
