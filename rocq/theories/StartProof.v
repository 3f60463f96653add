(** Proofs about the start of the Newton methods (StartModel). *)
From Coq Require Import List Arith Bool Reals Lra Lia.
From Verif Require Import Num Exn StateModel NewtonModel NewtonProof RefModel MMDModel IterModel IterSpec HvnModel MnModel StartModel StartSpec.
Import ListNotations.
Open Scope R_scope.

Lemma real_some l : real_bounds (map Real l) = Some l.
Proof. induction l as [|x t IH]; cbn; auto. rewrite IH. auto. Qed.
Lemma real_iff b : (exists l, real_bounds b = Some l) <-> forall s, ~ In (Infinite s) b.
Proof.
  induction b as [|[x|s] t IH]; cbn.
  - split; eauto.
  - destruct (real_bounds t) as [l|].
    + split; [|eauto]. intros _ s [H|H]; [discriminate|]. apply (proj1 IH (ex_intro _ _ eq_refl) s H).
    + split. intros [l H]; discriminate. intros H. destruct IH as [_ IH]. destruct IH as [l E]; [|discriminate]. intros s Hs. apply (H s). auto.
  - split. intros [l H]; discriminate. intros H. exfalso. apply (H s). auto.
Qed.
Lemma real_inv b l : real_bounds b = Some l -> b = map Real l.
Proof.
  revert l. induction b as [|[x|s] t IH]; cbn; intros l H; try discriminate. inversion H; auto.
  destruct (real_bounds t) as [l'|]; [|discriminate]. inversion H. cbn. f_equal. auto.
Qed.

Lemma sample_row_len (xl xu u : list R) : length xl = length u -> length xu = length u -> length (sample_row xl xu u) = length u.
Proof.
  revert xl xu. induction u as [|a u IH]; intros [|x xl] [|y xu] H1 H2; cbn in *; try discriminate; auto.
  f_equal. apply IH; lia.
Qed.
Lemma sample_row_nth (xl xu u : list R) k : length xl = length u -> length xu = length u -> (k < length u)%nat ->
  nth k (sample_row xl xu u) 0 = nth k xl 0 + nth k u 0 * (nth k xu 0 - nth k xl 0).
Proof.
  revert xl xu k. induction u as [|a u IH]; intros [|x xl] [|y xu] k H1 H2 Hk; cbn in *; try discriminate; try lia.
  destruct k as [|k]. change (a * (y - x) + x = x + a * (y - x)). ring. apply IH; lia.
Qed.
Lemma sample_in_box (xl xu u : list R) : length xl = length u -> length xu = length u ->
  (forall k, (k < length u)%nat -> nth k xl 0 <= nth k xu 0) -> (forall k, (k < length u)%nat -> 0 <= nth k u 0 < 1) ->
  in_box xl xu (sample_row xl xu u) /\ (forall k, (k < length u)%nat -> nth k xl 0 < nth k xu 0 -> nth k (sample_row xl xu u) 0 < nth k xu 0).
Proof.
  intros H1 H2 Hb Hu. split.
  - split. rewrite sample_row_len; auto. split. rewrite sample_row_len; auto. intros k Hk. rewrite sample_row_len in Hk by auto.
    rewrite sample_row_nth by auto. specialize (Hb k Hk). specialize (Hu k Hk). split; nra.
  - intros k Hk Hs. rewrite sample_row_nth by auto. specialize (Hu k Hk). nra.
Qed.
Lemma sample_onto (xl xu x : list R) : length xl = length x -> length xu = length x ->
  (forall k, (k < length x)%nat -> nth k xl 0 <= nth k x 0 < nth k xu 0) ->
  exists u, length u = length x /\ (forall k, (k < length x)%nat -> 0 <= nth k u 0 < 1) /\ sample_row xl xu u = x.
Proof.
  revert xl xu. induction x as [|a x IH]; intros [|l xl] [|h xu] H1 H2 Hb; cbn in H1, H2; try discriminate.
  - exists []. split; auto. split; auto. cbn. intros; lia.
  - destruct (IH xl xu) as (u & L & U & E). lia. lia. intros k Hk. apply (Hb (S k)). cbn. lia.
    pose proof (Hb 0%nat ltac:(cbn; lia)) as H0. cbn in H0.
    exists ((a - l) / (h - l) :: u). split. cbn. lia. split.
    + intros [|k] Hk; [|apply U; cbn in Hk; lia]. cbn [nth]. split.
      * apply Rmult_le_pos. lra. left. apply Rinv_0_lt_compat. lra.
      * apply (Rmult_lt_reg_r (h - l)). lra. unfold Rdiv. rewrite Rmult_assoc, Rinv_l by lra. lra.
    + unfold sample_row in *. cbn [zip_with]. apply (f_equal2 (@cons R)); [|exact E].
      change ((a - l) / (h - l) * (h - l) + l = a). field. lra.
Qed.

Lemma clip_id xl xu x : in_box xl xu x -> clip_row xl xu x = x.
Proof.
  intros (H1 & H2 & H3). revert xl xu H1 H2 H3. induction x as [|a x IH]; intros [|l xl] [|h xu] H1 H2 H3; cbn in H1, H2; try discriminate; auto.
  unfold clip_row in *. cbn [zip_with]. apply (f_equal2 (@cons R)).
  - pose proof (H3 0%nat ltac:(cbn; lia)) as H. cbn in H. rewrite Rmax_left, Rmin_left; lra.
  - apply IH. lia. lia. intros k Hk. apply (H3 (S k)). cbn. lia.
Qed.

Section Start.
Variables (rand : nat -> nat -> list (list R)) (n d : nat) (xl xu : list R).
Hypothesis U : uniform n d (rand n d).
Hypothesis Ll : length xl = d.
Hypothesis Lu : length xu = d.
Hypothesis Hb : forall k, (k < d)%nat -> nth k xl 0 <= nth k xu 0.

Lemma sampled_ok : sampled rand (Some n) d (map Real xl) (map Real xu) = Ok (map (sample_row xl xu) (rand n d)).
Proof. unfold sampled. rewrite !real_some. auto. Qed.
Lemma sampled_box x : In x (map (sample_row xl xu) (rand n d)) ->
  in_box xl xu x /\ (forall k, (k < d)%nat -> nth k xl 0 < nth k xu 0 -> nth k x 0 < nth k xu 0).
Proof.
  intros Hx. apply in_map_iff in Hx as (u & <- & Hu). destruct U as [_ U2]. destruct (U2 u Hu) as [L R0].
  destruct (sample_in_box xl xu u) as [A B]; try congruence. intros k Hk; apply Hb; congruence. intros k Hk; apply R0; congruence. split; auto. intros k Hk; apply B; congruence.
Qed.
Lemma same_rows (w : list R) : map (fun x => x ++ w) (map (sample_row xl xu) (rand n d)) =
  map (fun x => clip_row xl xu x ++ w) (map (sample_row xl xu) (rand n d)).
Proof. apply map_ext_in. intros x Hx. rewrite clip_id; auto. apply sampled_box; auto. Qed.
End Start.

Lemma hvn_same V rand n : uniform n (c_nvar (v_prob V)) (rand n (c_nvar (v_prob V))) -> length (v_xl V) = c_nvar (v_prob V) -> length (v_xu V) = c_nvar (v_prob V) ->
  (forall k, (k < c_nvar (v_prob V))%nat -> nth k (v_xl V) 0 <= nth k (v_xu V) 0) ->
  hvn_start V rand (Some n) = hvn_init V (map (sample_row (v_xl V) (v_xu V)) (rand n (c_nvar (v_prob V)))).
Proof.
  intros U Ll Lu Hb. unfold hvn_start, vdim_p. rewrite (sampled_ok _ _ _ _ _ ) by auto. cbn [bind]. unfold hvn_init. rewrite map_length.
  destruct U as [U1 U2]. rewrite U1. rewrite (same_rows rand n (c_nvar (v_prob V))); auto. split; auto.
Qed.
Lemma dpn_same K rs rand n : uniform n (c_nvar (k_prob K)) (rand n (c_nvar (k_prob K))) -> length (k_xl K) = c_nvar (k_prob K) -> length (k_xu K) = c_nvar (k_prob K) ->
  (forall k, (k < c_nvar (k_prob K))%nat -> nth k (k_xl K) 0 <= nth k (k_xu K) 0) ->
  dpn_start K rs rand (Some n) = dpn_init K rs (map (sample_row (k_xl K) (k_xu K)) (rand n (c_nvar (k_prob K)))).
Proof.
  intros U Ll Lu Hb. unfold dpn_start, dim_p. rewrite (sampled_ok _ _ _ _ _ ) by auto. cbn [bind]. unfold dpn_init.
  rewrite (same_rows rand n (c_nvar (k_prob K))); auto.
Qed.
Lemma mn_same M rs rand n : let K := n_base M in uniform n (c_nvar (k_prob K)) (rand n (c_nvar (k_prob K))) -> length (k_xl K) = c_nvar (k_prob K) -> length (k_xu K) = c_nvar (k_prob K) ->
  (forall k, (k < c_nvar (k_prob K))%nat -> nth k (k_xl K) 0 <= nth k (k_xu K) 0) ->
  mn_start M rs rand (Some n) = mn_init M rs (map (sample_row (k_xl K) (k_xu K)) (rand n (c_nvar (k_prob K)))).
Proof.
  intros K U Ll Lu Hb. unfold mn_start, dim_p. fold K. rewrite (sampled_ok _ _ _ _ _ ) by auto. cbn [bind]. unfold mn_init. fold K.
  rewrite (same_rows rand n (c_nvar (k_prob K))); auto.
Qed.

Lemma sampled_error rand N d xl xu : sampled rand N d xl xu = Exn AssertionError <-> N = None \/ exists s, In (Infinite s) xl \/ In (Infinite s) xu.
Proof.
  unfold sampled. destruct N as [n|]; [|split; auto].
  assert (D : forall b, real_bounds b = None -> exists s, In (Infinite s) b).
  { induction b as [|[x|s] t IH]; cbn; intros H; try discriminate. destruct (real_bounds t); [discriminate|]. destruct (IH eq_refl) as [s Hs]. exists s; auto. exists s; auto. }
  split.
  - intros H. right. destruct (real_bounds xl) eqn:E1; [destruct (real_bounds xu) eqn:E2; [discriminate|]|]. destruct (D _ E2) as [s Hs]. eauto. destruct (D _ E1) as [s Hs]. eauto.
  - intros [H|[s [H|H]]]. discriminate.
    + destruct (real_bounds xl) eqn:E1; auto. exfalso. apply (proj1 (real_iff xl) (ex_intro _ _ E1) s H).
    + destruct (real_bounds xl); auto. destruct (real_bounds xu) eqn:E1; auto. exfalso. apply (proj1 (real_iff xu) (ex_intro _ _ E1) s H).
Qed.
