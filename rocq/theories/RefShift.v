(** Shifting matched reference points. *)
From Coq Require Import List Arith Bool Reals Lia Lra Permutation.
From Verif Require Import Num Exn ListAux StateModel StateProof NewtonModel NewtonProof RefModel RefProof RefSpec.
Import ListNotations.
Open Scope nat_scope.

Definition inv (mi : list (option (nat * nat))) (M : list (list R)) (med : list (option (list (list R)))) : Prop :=
  length mi = length M /\
  (forall k, k < length M -> exists c i L, nth_error mi k = Some (Some (c, i)) /\
     nth_error med c = Some (Some L) /\ i < length L /\ nth_error L i = nth_error M k) /\
  (forall k k' p, nth_error mi k = Some (Some p) -> nth_error mi k' = Some (Some p) -> k = k').

Lemma shift_one_spec c eta mi M med k : inv mi M med -> k < length M ->
  (forall c i, nth_error mi k = Some (Some (c, i)) -> exists e, nth_error eta c = Some e) ->
  exists M' med' comp i e, shift_one c eta mi (M, med) k = Ok (M', med') /\ inv mi M' med' /\ length M' = length M /\
    nth_error mi k = Some (Some (comp, i)) /\ nth_error eta comp = Some e /\
    nth k M' [] = add_vec (nth k M []) (scale c e) /\ (forall j, j <> k -> nth j M' [] = nth j M []).
Proof.
  intros (I1 & I2 & I3) Hk He. destruct (I2 k Hk) as (cc & i & L & A1 & A2 & A3 & A4). destruct (He cc i A1) as (e & Ee).
  unfold shift_one, nth_res. rewrite A1. cbn [bind]. rewrite Ee. cbn [bind]. destruct (nth_error M k) as [row|] eqn:Er. 2:{ apply nth_error_None in Er. lia. }
  cbn [bind]. rewrite A2. cbn [bind]. unfold put_row. replace (i <? length L) with true by (symmetry; apply Nat.ltb_lt; auto). cbn [bind].
  assert (Hrow : nth k M [] = row) by (apply nth_error_nth; auto). set (row' := add_vec row (scale c e)).
  assert (Hcm : cc < length med) by (apply nth_error_Some; congruence).
  exists (set_row k row' M), (set_row cc (Some (set_row i row' L)) med), cc, i, e. split; [reflexivity|].
  assert (Hk' : k <? length M = true) by (apply Nat.ltb_lt; auto). assert (Hc' : cc <? length med = true) by (apply Nat.ltb_lt; auto). assert (Hi' : i <? length L = true) by (apply Nat.ltb_lt; auto).
  split; [|split; [apply set_row_length|split; auto; split; auto; split]].
  - split. rewrite set_row_length; auto. split; auto. rewrite set_row_length. intros j Hj. destruct (Nat.eq_dec j k) as [->|Hjk].
    + exists cc, i, (set_row i row' L). split; auto. rewrite set_row_nth, Nat.eqb_refl, Hc'. split; auto. rewrite set_row_length. split; auto.
      rewrite !set_row_nth, !Nat.eqb_refl, Hk', Hi'. auto.
    + destruct (I2 j Hj) as (c2 & i2 & L2 & B1 & B2 & B3 & B4). rewrite (set_row_nth k).
      replace (j =? k) with false by (symmetry; apply Nat.eqb_neq; auto). cbn [andb].
      destruct (Nat.eq_dec c2 cc) as [->|Hcc].
      * assert (L2 = L) by congruence. subst L2. assert (i2 <> i). { intros ->. apply Hjk. apply (I3 j k (cc, i)); auto. }
        exists cc, i2, (set_row i row' L). split; auto. rewrite set_row_nth, Nat.eqb_refl, Hc'. split; auto. rewrite set_row_length. split; auto.
        rewrite set_row_nth. replace (i2 =? i) with false by (symmetry; apply Nat.eqb_neq; auto). auto.
      * exists c2, i2, L2. split; auto. rewrite set_row_nth. replace (c2 =? cc) with false by (symmetry; apply Nat.eqb_neq; auto). auto.
  - apply nth_error_nth. rewrite set_row_nth, Nat.eqb_refl, Hk'. unfold row'. rewrite Hrow. auto.
  - intros j Hj. apply nth_error_eq. rewrite set_row_nth. replace (j =? k) with false by (symmetry; apply Nat.eqb_neq; auto). auto.
Qed.

Lemma add_vec_length a b : length a = length b -> length (add_vec a b) = length a.
Proof. intros. unfold add_vec. apply zip_with_length; auto. Qed.
Lemma add_vec_nth a b j : length a = length b -> (nth j (add_vec a b) 0 = nth j a 0 + nth j b 0)%R.
Proof.
  intros H. destruct (Nat.lt_ge_cases j (length a)) as [Hj|Hj]. unfold add_vec. rewrite (zip_with_nth _ _ _ _ 0%R 0%R) by lia. auto.
  rewrite !nth_overflow; [lra|lia|lia|]. rewrite add_vec_length; auto.
Qed.
Lemma scale_nth c v j : (nth j (scale c v) 0 = c * nth j v 0)%R.
Proof.
  unfold scale. destruct (Nat.lt_ge_cases j (length v)). rewrite (nth_map_default _ _ _ 0%R) by auto. auto.
  rewrite !nth_overflow by (rewrite ?map_length; auto). lra.
Qed.
Lemma scale_length c v : length (scale c v) = length v. Proof. apply map_length. Qed.

(** row [k] moved by [w] times the direction of its component *)
Definition moved (eta : list (list R)) (mi : list (option (nat * nat))) (M M' : list (list R)) (k : nat) (w : R) : Prop :=
  exists c i e, nth_error mi k = Some (Some (c, i)) /\ nth_error eta c = Some e /\ length (nth k M' []) = length (nth k M []) /\
  length (nth k M []) = length e /\ forall j, (nth j (nth k M' []) 0 = nth j (nth k M []) 0 + w * nth j e 0)%R.

Lemma shift_many_spec c eta mi ks : forall M med, inv mi M med -> (forall k, In k ks -> k < length M) ->
  (forall k c i, nth_error mi k = Some (Some (c, i)) -> exists e, nth_error eta c = Some e /\ length (nth k M []) = length e) ->
  exists M' med', foldM (shift_one c eta mi) ks (M, med) = Ok (M', med') /\ inv mi M' med' /\ length M' = length M /\
  forall k, k < length M -> moved eta mi M M' k (c * INR (occurrences k ks)).
Proof.
  induction ks as [|k ks IH]; intros M med Hi Hb He; cbn [foldM].
  - exists M, med. split; auto. split; auto. split; auto. intros k Hk. destruct Hi as (_ & I2 & _). destruct (I2 k Hk) as (cc & i & L & A1 & _).
    destruct (He k cc i A1) as (e & Ee & Le). exists cc, i, e. repeat split; auto. intros j. unfold occurrences. simpl. lra.
  - destruct (shift_one_spec c eta mi M med k Hi) as (M1 & med1 & comp & i & e & E1 & Hi1 & L1 & A1 & A2 & A3 & A4). { apply Hb; simpl; auto. }
    { intros c0 i0 H0. destruct (He _ _ _ H0) as (e0 & ? & _). eauto. }
    rewrite E1. cbn [bind].
    assert (Hlen : forall q, length (nth q M1 []) = length (nth q M [])).
    { intros q. destruct (Nat.eq_dec q k) as [->|Hq]. rewrite A3. apply add_vec_length. rewrite scale_length. destruct (He k comp i A1) as (e' & Ee' & Le'). congruence. rewrite A4; auto. }
    destruct (IH M1 med1 Hi1) as (M' & med' & E' & Hi' & L' & Hm). { intros q Hq. rewrite L1. apply Hb; simpl; auto. }
    { intros q c0 i0 H0. rewrite Hlen. eauto. }
    exists M', med'. split; auto. split; auto. split; [congruence|]. intros q Hq. destruct (Hm q ltac:(lia)) as (c1 & i1 & e1 & B1 & B2 & B3 & B4 & B5).
    exists c1, i1, e1. split; auto. split; auto. split; [rewrite B3; auto|]. split; [rewrite <- Hlen; auto|]. intros j. rewrite B5. unfold occurrences. cbn [count_occ].
    destruct (Nat.eq_dec k q) as [->|Hne].
    + assert (comp = c1) by congruence. subst c1. assert (e = e1) by congruence. subst e1. rewrite A3, add_vec_nth, scale_nth, S_INR by (rewrite scale_length; rewrite <- Hlen; auto). lra.
    + rewrite A4 by auto. lra.
Qed.

Lemma moved_trans eta mi M M1 M2 k w1 w2 : moved eta mi M M1 k w1 -> moved eta mi M1 M2 k w2 -> moved eta mi M M2 k (w1 + w2).
Proof.
  intros (c & i & e & A1 & A2 & A3 & A4 & A5) (c' & i' & e' & B1 & B2 & B3 & B4 & B5). assert (c' = c) by congruence. subst c'. assert (e' = e) by congruence. subst e'.
  exists c, i, e. repeat split; auto; try congruence. intros j. rewrite B5, A5. lra.
Qed.

Lemma shifts_spec ops : forall s M mi, consistent s -> eta_ok s -> rs_matched s = Some (M, mi) ->
  (forall c l k, In (c, Some l) ops -> In k l -> k < length M) ->
  exists s' M', foldM (fun s o => shift_ref s (fst o) (snd o)) ops s = Ok s' /\ consistent s' /\ eta_ok s' /\
    rs_matched s' = Some (M', mi) /\ length M' = length M /\ rs_eta s' = rs_eta s /\ rs_ref s' = rs_ref s /\
    forall k, k < length M -> moved (rs_eta s) mi M M' k (shift_weight (length M) k ops).
Proof.
  induction ops as [|[c o] ops IH]; intros s M mi Hc He Hm Hb; cbn [foldM].
  - exists s, M. repeat (split; auto). intros k Hk. destruct Hc as (M0 & mi0 & E & _ & H & _). rewrite Hm in E. injection E as <- <-.
    destruct (H k Hk) as (cc & i & L & A1 & _). destruct (He M mi k cc i Hm A1) as (e & Ee & Le). exists cc, i, e. repeat split; auto. intros j. unfold shift_weight. simpl. lra.
  - cbn [fst snd]. unfold shift_ref at 1. rewrite Hm. set (ks := match o with Some l => l | None => seq 0 (length M) end).
    assert (Hi : inv mi M (rs_medoids s)). { destruct Hc as (M0 & mi0 & E & H1 & H2 & H3). rewrite Hm in E. injection E as <- <-. split; auto. }
    assert (Hks : forall k, In k ks -> k < length M). { intros k Hk. unfold ks in Hk. destruct o as [l|]. apply (Hb c l k); simpl; auto. apply in_seq in Hk. lia. }
    destruct (shift_many_spec c (rs_eta s) mi ks M (rs_medoids s) Hi Hks) as (M1 & med1 & E1 & Hi1 & L1 & Hm1). { intros k c0 i0 H0. apply (He M mi k c0 i0 Hm H0). }
    rewrite E1. cbn [bind fst snd]. set (s1 := mkRS _ _ _ _ _ _).
    assert (Hc1 : consistent s1). { destruct Hi1 as (H1 & H2 & H3). exists M1, mi. cbn. split; auto. }
    assert (Hlen : forall k, length (nth k M1 []) = length (nth k M [])). { intros k. destruct (Nat.lt_ge_cases k (length M)). destruct (Hm1 k H) as (? & ? & ? & _ & _ & E & _). auto. rewrite !nth_overflow; auto. lia. }
    assert (He1 : eta_ok s1). { intros M0 mi0 k c0 i0 E H0. cbn in E. injection E as <- <-. cbn. rewrite Hlen. apply (He M mi k c0 i0 Hm H0). }
    destruct (IH s1 M1 mi Hc1 He1 eq_refl) as (s' & M' & E' & Hc' & He' & Hm' & L' & Heta & Href & Hmv). { intros c0 l k H0 H1. rewrite L1. apply (Hb c0 l k); simpl; auto. }
    exists s', M'. split; auto. split; auto. split; auto. split; auto. split; [congruence|]. split; auto. split; auto. intros k Hk.
    unfold shift_weight. cbn [map fold_right fst snd]. fold ks. apply moved_trans with M1. apply Hm1; auto. rewrite L1 in Hmv. apply Hmv. auto.
Qed.
