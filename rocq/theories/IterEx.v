(** A one-dimensional instance of DpN: the objective is the variable, one point, one reference point. *)
From Coq Require Import List Arith Bool Reals ZArith Lia Lra.
From Verif Require Import Num Exn ListAux MiscModel StateModel StateSpec StateProof StepSpec NewtonModel NewtonProof NewtonBox NewtonPop RefModel RefProof HVXModel IndModel IndSpec IndProof IndTop StepModel ShiftModel StepTop StepSolver IterModel IterSpec IterProof IterMain IterOracle.
Import ListNotations.
Open Scope R_scope.

Definition prob1 : pconfig :=
  mkCfg 1 0 0 (mkCb (fun x => [nth 0 x 0]) None) (mkCb (fun _ _ _ => 1) None) None None None None None None.
Definition K1 (t : kind) (a b : R) : dpn_cfg :=
  mkDpnCfg prob1 (fun _ _ _ _ => 0) [a] [b] t false 1 lsa0 (fun _ _ => Ok 0) kmedoids0 solve0 lstsq0 (fun _ _ => None).
Lemma lsa1 v : lsa0 [[v]] = Ok ([0%nat], [0%nat]).
Proof. unfold lsa0. cbn -[rleb]. destruct (rleb _ _); reflexivity. Qed.
Lemma solve1 q : solve0 [[2]] [q] = Some [q / 2].
Proof.
  assert (E : lstsq0 [[2]] [q] = [q / 2]).
  { unfold lstsq0. cbn. destruct (Req_EM_T _ 0) as [E|E]; unfold dotR in *; cbn in *; [lra|]. f_equal. field. }
  unfold solve0. rewrite E. destruct (list_eq_dec _ _ _) as [_|E']; auto. destruct E'. unfold mv. cbn. unfold dotR. cbn. f_equal. field.
Qed.
(** before and after the first match *)
Definition ref1 (r e : R) : refset := mkRS [[[r]]] [[e]] None true [None] None.
Definition ref1m (r0 r e : R) : refset := mkRS [[[r0]]] [[e]] (Some [[0%nat]]) true [Some [[r]]] (Some ([[r]], [Some (0%nat, 0%nat)])).
Definition st1 (x : R) (n : nat) : pstate := mkSt [[x]] [[x]] (Some [fun _ _ => 1]) [[]] [[]] [[]] (Some [[]]) n 0 0.

Section Ex.
Variables (t : kind) (a b : R).
Lemma upd1 s x : n_cjac s = 0%nat -> n_chess s = 0%nat -> upd (K1 t a b) s [[x]] = Ok (st1 x (n_jac s + 1)).
Proof. intros H1 H2. unfold upd, update, st1. cbn. rewrite H1, H2. reflexivity. Qed.
Lemma upd_one1 x n y : upd_one (K1 t a b) (st1 x n) [y] 0 = Ok (st1 y (n + 1)).
Proof. reflexivity. Qed.
Lemma match1 r e y : match_ (K1 t a b) (ref1 r e) [[y]] = Ok (ref1m r r e).
Proof. unfold match_. cbn -[lsa0]. unfold match_rows. cbn -[lsa0]. rewrite lsa1. reflexivity. Qed.
Lemma match1m r0 r e y : match_ (K1 t a b) (ref1m r0 r e) [[y]] = Ok (ref1m r0 r e).
Proof. unfold match_. cbn -[lsa0]. unfold match_rows. cbn -[lsa0]. rewrite lsa1. reflexivity. Qed.
Lemma sqrt_abs z : sqrt (z * z + 0) = Rabs z.
Proof. rewrite Rplus_0_r. apply sqrt_Rsqr_abs. Qed.
Lemma root_mean_one d : 0 <= d -> root_mean 2 [d] = Ok (Fin d).
Proof.
  intros Hd. rewrite root_mean_spec by (try lra; discriminate). cbn [map length INR]. unfold sumR. cbn [fold_right]. do 2 f_equal.
  pose proof (pw_inv (d * d) 2 ltac:(lra) ltac:(nra)) as E. rewrite pw_2 in E by apply pw_nonneg. rewrite pw_2 by auto.
  replace ((d * d + 0) / 1) with (d * d) by field. pose proof (pw_nonneg (d * d) (1 / 2)). nra.
Qed.
Lemma gd1 rs r x : reference_set rs = [[r]] -> gd_compute (the_ind (K1 t a b) rs) None (Some [[x]]) = Ok (Fin (Rabs (x - r))).
Proof.
  intros H. unfold gd_compute, the_ind. rewrite H. cbn -[root_mean dist2]. unfold dist2. cbn -[root_mean]. rewrite sqrt_abs. apply root_mean_one. apply Rabs_pos.
Qed.
Lemma values1 rs r0 r e x : reference_set rs = [[r]] -> match_ (K1 t a b) rs [[x]] = Ok (ref1m r0 r e) ->
  indicator_values (K1 t a b) rs [[x]] = Ok (Rabs (x - r), (x - r) * (x - r), ref1m r0 r e).
Proof.
  intros H E. unfold indicator_values. rewrite (gd1 _ r) by auto. rewrite E. cbn. do 3 f_equal. field.
Qed.
Lemma npow_0 z : npow z 0 = Fin 1.
Proof. unfold npow, reqb. destruct (Req_EM_T z 0); destruct (Req_EM_T 0 0); try lra; auto. f_equal. unfold Rpower. rewrite Rmult_0_l. apply exp_0. Qed.
Lemma deriv1 k r0 r e x n hes : derivatives (K1 t a b) k (ref1m r0 r e) (st1 x n) hes = Ok ([[2 * (x - r)]], if hes then Some [[[2]]] else None, ref1m r0 r e).
Proof.
  destruct k; unfold derivatives.
  - unfold gd_derivatives. cbn -[npow INR]. replace (2 - 2) with 0 by ring. rewrite npow_0. unfold reqb. destruct (Req_EM_T 2 2) as [_|]; [|lra].
    destruct hes; cbn -[INR]; repeat (f_equal; try (cbn; field)).
  - change (s_Y (st1 x n)) with [[x]]. rewrite match1m. unfold igd_derivatives. destruct hes; cbn; repeat (f_equal; try ring).
Qed.
Lemma step1 k r0 r e x n : newton_step (K1 t a b) k (ref1m r0 r e) (st1 x n) = Ok ([[r - x]], [[2 * (x - r)]], ref1m r0 r e).
Proof.
  unfold newton_step. rewrite deriv1. unfold dpn_step, dpn_point, newton_dir. cbn [bind K1 k_solve k_pre points_of s_X st1 length seq map]. cbn -[solve0 lstsq0]. rewrite solve1.
  cbn. repeat (f_equal; try field).
Qed.
Lemma box1_pos x s : a < x -> x < b -> exists m, 0 < m <= 1 /\ (a <= x + s <= b -> m = 1) /\
  handle_box (K1 t a b) (st1 x 0) [[s]] = Ok ([[s]], [m]).
Proof.
  intros Ha Hb. unfold handle_box, box_row.
  assert (E : exists m, 0 < m <= 1 /\ (a <= x + s <= b -> m = 1) /\ dpn_box [a] [b] [x] [s] = ([s], Fin m)).
  { destruct (dpn_box_safe [a] [b] [x] eq_refl eq_refl) with (step := [s]) (step' := fst (dpn_box [a] [b] [x] [s])) (m' := snd (dpn_box [a] [b] [x] [s])) as (_ & m & E & Hm & _ & _); auto.
    - intros k Hk. destruct k as [|k]; cbn in *; [lra|lia].
    - apply surjective_pairing.
    - assert (Hr : cap1 (nanmin (box_ratios [a] [b] [x] [s])) = Fin (if rltb s 0 then (if rltb ((x - a) / - s) 1 then (x - a) / - s else 1)
                   else if rltb 0 s then (if rltb ((b - x) / s) 1 then (b - x) / s else 1) else 1)).
      { unfold box_ratios. cbn [zip_with map app].
        rewrite (Rabs_right (x - a)), (Rabs_right (b - x)) by lra.
        change (fdiv (Fin (x - a)) (Fin (Rabs (Rmin 0 s)))) with (ratio (x - a) s). change (fdiv (Fin (b - x)) (Fin (Rabs (Rmin 0 (- s))))) with (ratio (b - x) (- s)).
        destruct (rltb s 0) eqn:E1; [apply rltb_true in E1|apply rltb_false in E1].
        - rewrite (ratio_neg _ s) by lra. rewrite (ratio_pos _ (- s)) by lra. cbn -[rltb]. destruct (rltb _ 1); auto.
        - rewrite (ratio_pos _ s) by lra. destruct (rltb 0 s) eqn:E2; [apply rltb_true in E2|apply rltb_false in E2].
          + rewrite (ratio_neg _ (- s)) by lra. cbn -[rltb]. rewrite Ropp_involutive. destruct (rltb _ 1); auto.
          + rewrite (ratio_pos _ (- s)) by lra. reflexivity. }
      exists (if rltb s 0 then (if rltb ((x - a) / - s) 1 then (x - a) / - s else 1) else if rltb 0 s then (if rltb ((b - x) / s) 1 then (b - x) / s else 1) else 1).
      assert (H0 : forall p q, 0 < p -> 0 < q -> 0 < p / q) by (intros; apply Rdiv_lt_0_compat; auto).
      assert (H1 : forall p q, 0 < q -> q <= p -> 1 <= p / q) by (intros p q A1 A2; apply (Rmult_le_reg_r q); auto; unfold Rdiv; rewrite Rmult_assoc, Rinv_l; lra).
      split; [|split].
      + destruct (rltb s 0) eqn:E1; [apply rltb_true in E1|apply rltb_false in E1].
        * destruct (rltb _ 1) eqn:E3; [apply rltb_true in E3|lra]. split; [apply H0; lra|lra].
        * destruct (rltb 0 s) eqn:E2; [apply rltb_true in E2|lra]. destruct (rltb _ 1) eqn:E3; [apply rltb_true in E3|lra]. split; [apply H0; lra|lra].
      + intros Hin. destruct (rltb s 0) eqn:E1; [apply rltb_true in E1|apply rltb_false in E1].
        * destruct (rltb _ 1) eqn:E3; [apply rltb_true in E3|lra]. specialize (H1 (x - a) (- s) ltac:(lra) ltac:(lra)). lra.
        * destruct (rltb 0 s) eqn:E2; [apply rltb_true in E2|lra]. destruct (rltb _ 1) eqn:E3; [apply rltb_true in E3|lra]. specialize (H1 (b - x) s ltac:(lra) ltac:(lra)). lra.
      + unfold dpn_box. rewrite Hr. cbn [is_fzero]. set (m1 := if rltb s 0 then _ else _).
        assert (Hm1 : 0 < m1). { unfold m1. destruct (rltb s 0) eqn:E1; [apply rltb_true in E1|apply rltb_false in E1].
        * destruct (rltb _ 1); [|lra]. apply H0; lra.
        * destruct (rltb 0 s) eqn:E2; [apply rltb_true in E2|lra]. destruct (rltb _ 1); [|lra]. apply H0; lra. }
        unfold reqb. destruct (Req_EM_T m1 0); [lra|auto]. }
  destruct E as (m & H1 & H2 & E). exists m. split; auto. split; auto. cbn -[dpn_box]. rewrite E. cbn. reflexivity.
Qed.
Lemma shift1_first x st r0 r e : dpn_shift 0 1 [[x]] st (ref1m r0 r e) = Ok (ref1m r0 (r + 0.08 * e) e, [(0%nat, [r + 0.08 * e])]).
Proof. reflexivity. Qed.
Lemma shift1_stay i x s r0 r e : / 10 ^ 8 < Rabs s -> dpn_shift (S i) 1 [[x]] [[s]] (ref1m r0 r e) = Ok (ref1m r0 r e, []).
Proof.
  intros H. unfold dpn_shift, dpn_masks. cbn [reference_set ref1m rs_matched length Nat.eqb negb orb zip_with map fold_right]. rewrite sqrt_abs.
  assert (E : close_to_0 (Rabs s) = false) by (unfold close_to_0; apply rleb_false; rewrite Rabs_Rabsolu; auto). rewrite E, andb_false_r. reflexivity.
Qed.
Lemma shift1_go i x s r0 r e : Rabs (x - r) <= / 10 ^ 8 -> Rabs s <= / 10 ^ 8 -> dpn_shift (S i) 1 [[x]] [[s]] (ref1m r0 r e) = Ok (ref1m r0 (r + 0.05 * e) e, [(0%nat, [r + 0.05 * e])]).
Proof.
  intros Hx H. unfold dpn_shift, dpn_masks. cbn [reference_set ref1m rs_matched length Nat.eqb negb orb zip_with map fold_right]. unfold dist2. cbn [zip_with fold_right]. rewrite !sqrt_abs.
  assert (E : close_to_0 (Rabs s) = true) by (unfold close_to_0; apply rleb_true; rewrite Rabs_Rabsolu; auto).
  assert (E2 : close_to_0 (Rabs (x - r)) = true) by (unfold close_to_0; apply rleb_true; rewrite Rabs_Rabsolu; auto). rewrite E, E2. reflexivity.
Qed.
Lemma phi1 k r0 r e x n : phi_func (K1 t a b) k (st1 x n) [[r - x]] 0 (ref1m r0 r e, n) 1 = Ok (0, (ref1m r0 r e, n + 1)%nat).
Proof.
  unfold phi_func. change (set_njac (st1 x n) (snd (ref1m r0 r e, n))) with (st1 x n). change (trial_point (st1 x n) [[r - x]] 0 1) with [x + 1 * (r - x)].
  rewrite upd_one1. cbn [bind fst]. rewrite deriv1. cbn [bind]. change (R_list (K1 t a b) (st1 (x + 1 * (r - x)) (n + 1)) [[2 * (x + 1 * (r - x) - r)]]) with (Ok [[2 * (x + 1 * (r - x) - r)]]).
  cbn [bind nth_res nth_error]. replace (2 * (x + 1 * (r - x) - r)) with 0 by ring.
  assert (N0 : norm [0] = 0) by (unfold norm; cbn; rewrite Rmult_0_l, Rplus_0_l; apply sqrt_0). rewrite N0. reflexivity.
Qed.
Lemma search_hit {W} (phi : W -> R -> res (R * W)) n phi0 s2 p2 s1 w p1 w' : phi w s1 = Ok (p1, w') -> armijo (/ 10 ^ 4) (Fin phi0) s1 (Fin p1) = true ->
  search phi (S n) phi0 s2 p2 s1 w = Ok (s1, w').
Proof. intros H1 H2. cbn [search]. rewrite H1. cbn [bind fst snd]. rewrite H2. reflexivity. Qed.
Lemma search1_exact k r0 r e x n : / 10 ^ 8 < Rabs (r - x) -> line_search (K1 t a b) k (ref1m r0 r e) (st1 x n) [[r - x]] [[2 * (x - r)]] [1] = Ok ([1], (ref1m r0 r e, n + 1)%nat).
Proof.
  intros H. unfold line_search. cbn [forallb].
  assert (E : close_to_0 (r - x) = false) by (unfold close_to_0; apply rleb_false; auto). rewrite E. cbn [andb]. change (seq 0 (length (s_X (st1 x n)))) with [0%nat].
  cbn [search_all]. change (nth_res IndexError [1] 0) with (Ok 1). cbn [bind]. change (nth_res IndexError [[2 * (x - r)]] 0) with (Ok [2 * (x - r)]). cbn [bind]. change (n_jac (st1 x n)) with n.
  rewrite (search_hit _ 7 _ _ _ _ _ _ _ (phi1 k r0 r e x n)). reflexivity.
  unfold armijo. apply orb_true_iff. left. cbn [fmul fle]. apply rleb_true. apply Rmult_le_pos; [lra|]. unfold norm. apply sqrt_pos.
Qed.
Lemma search1_zero k rs x n s Rm mx : Rabs s <= / 10 ^ 8 -> line_search (K1 t a b) k rs (st1 x n) [[s]] Rm mx = Ok ([1], (rs, n)).
Proof.
  intros H. unfold line_search. cbn [forallb]. assert (E : close_to_0 s = true) by (unfold close_to_0; apply rleb_true; auto). rewrite E. reflexivity.
Qed.
End Ex.

(** one iteration that moves the point to the reference point *)
Section Iteration.
Variables (t : kind) (a b : R).
Definition valid (r0 r e : R) (rs : refset) : Prop := rs = ref1 r e /\ r0 = r \/ rs = ref1m r0 r e.
Lemma iteration1 o r0 r r' e x n lg : d_state o = st1 x n -> valid r0 r e (d_ref o) -> a < x < b ->
  dpn_shift (d_iter o) 1 [[x]] (map (firstn 1) (d_step o)) (ref1m r0 r e) = Ok (ref1m r0 r' e, lg) ->
  (/ 10 ^ 8 < Rabs (r' - x) /\ a <= r' <= b) \/ Rabs (r' - x) <= / 10 ^ 8 ->
  newton_iteration (K1 t a b) o = Ok (mkDpn (st1 r' (n + if rleb (Rabs (r' - x)) (/ 10 ^ 8) then 1 else 2)) (ref1m r0 r' e) (d_iter o) (Rabs (x - r)) ((x - r) * (x - r))
     [[r' - x]] [[2 * (x - r')]] [1] (h_X o) (h_Y o) (h_val o) (h_R o) (h_med o ++ lg)).
Proof.
  intros Hs Hv Hx Hsh Hreg. unfold newton_iteration. rewrite Hs. change (s_Y (st1 x n)) with [[x]]. change (s_X (st1 x n)) with [[x]]. cbn [length].
  rewrite (values1 t a b _ r0 r e x).
  2:{ destruct Hv as [[-> ->]| ->]; reflexivity. }
  2:{ destruct Hv as [[-> ->]| ->]; [apply match1|apply match1m]. }
  cbn [bind]. change (dim_p (K1 t a b)) with 1%nat. rewrite Hsh. cbn [bind fst snd]. rewrite step1. cbn [bind].
  destruct (box1_pos t a b x (r' - x) (proj1 Hx) (proj2 Hx)) as (m & Hm & Hm1 & Hb). change (handle_box (K1 t a b) (st1 x n) [[r' - x]]) with (handle_box (K1 t a b) (st1 x 0) [[r' - x]]). rewrite Hb. cbn [bind fst snd].
  assert (E1 : x + 1 * (r' - x) = r') by ring.
  destruct Hreg as [[Hn Hin]|Hn].
  - assert (m = 1) as -> by (apply Hm1; lra). rewrite search1_exact by auto. cbn [bind fst snd]. unfold moved. cbn [combine zip_with fst snd].
    rewrite upd1 by reflexivity. cbn [bind]. rewrite E1. assert (Ez : rleb (Rabs (r' - x)) (/ 10 ^ 8) = false) by (apply rleb_false; auto). rewrite Ez. cbn [n_jac set_njac].
    replace (n + 1 + 1)%nat with (n + 2)%nat by lia. reflexivity.
  - rewrite search1_zero by auto. cbn [bind fst snd]. unfold moved. cbn [combine zip_with fst snd].
    rewrite upd1 by reflexivity. cbn [bind]. rewrite E1. assert (Ez : rleb (Rabs (r' - x)) (/ 10 ^ 8) = true) by (apply rleb_true; auto). rewrite Ez. cbn [n_jac set_njac]. reflexivity.
Qed.
End Iteration.

(** the assumptions hold of this instance *)
Lemma wp1 t a b : well_posed (K1 t a b).
Proof.
  constructor; cbn; auto; try discriminate; try (intros ? ? H; discriminate H); try (intros ? ? ? H; discriminate H).
  - repeat split; try (intros X; discriminate); try (intros f g H; discriminate H); intros ? ?; discriminate.
  - intros [H|H]; congruence.
Qed.
Lemma oo1 t a b : oracles_ok (K1 t a b).
Proof. constructor; cbn. apply solve0_ok. apply lstsq0_ok. apply lsa0_ok. apply lsa0_total. apply kmedoids0_ok. apply kmedoids0_total. Qed.
