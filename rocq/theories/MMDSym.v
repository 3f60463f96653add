(** Values of MMD: symmetry, permutations; the compiled functions; trial evaluations. *)
From Coq Require Import List Arith Bool Reals Lia Lra Permutation.
From Coquelicot Require Import Coquelicot.
From Verif Require Import Num Exn ListAux HVDSpec HVDProof NewtonModel NewtonProof HVXModel HVXSpec HVXProof HVChain HVXTop
  RefModel RefProof RefSpec RefTop IndSpec IndModel IndProof IndGD IndIGD IndTop MMDSpec MMDModel MMDProof MMDKern MMDTop.
Import ListNotations.
Open Scope R_scope.

(** * Values *)
Lemma ksum_pairs k A B : ksum k A B = pairs k A B.
Proof.
  unfold ksum, pairs. rewrite fold_sumR. reflexivity.
Qed.
Lemma kmean_ok k A B m : A <> [] -> B <> [] -> rows m A -> rows m B -> kmean k A B = Ok (mean_k k A B).
Proof.
  intros HA HB RA RB. unfold kmean. destruct A as [|a A]; [congruence|]. destruct B as [|b B]; [congruence|].
  assert (E : same_cols (a :: A) (b :: B) = true) by (apply (same_cols_iff _ _ m); auto). rewrite E, ksum_pairs. reflexivity.
Qed.
Lemma mmd_value q o Y m : Y <> [] -> m_ref o <> [] -> rows m Y -> rows m (m_ref o) ->
  mmd_compute q o None (Some Y) = Ok (mean_k (k_ q) (m_ref o) (m_ref o) + mean_k (k_ q) Y Y - 2 * mean_k (k_ q) (m_ref o) Y).
Proof.
  intros HY HR RY RR. unfold mmd_compute, mmd_Y. cbn [bind]. rewrite !(kmean_ok _ _ _ m) by auto. reflexivity.
Qed.
Lemma sumR_perm l l' : Permutation l l' -> sumR l = sumR l'.
Proof. induction 1; simpl; lra. Qed.
Lemma pairs_perm k A A' B B' : Permutation A A' -> Permutation B B' -> pairs k A B = pairs k A' B'.
Proof.
  intros HA HB. unfold pairs. transitivity (sumR (map (fun a => sumR (map (k a) B)) A')).
  - apply sumR_perm, Permutation_map, HA.
  - f_equal. apply map_ext. intros a. apply sumR_perm, Permutation_map, HB.
Qed.
Lemma pairs_swap k A B : (forall a b, In a A -> In b B -> k a b = k b a) -> pairs k A B = pairs k B A.
Proof.
  intros Hs. rewrite !pairs_sumn. rewrite sumn_swap. apply sumn_ext. intros j Hj. apply sumn_ext. intros l Hl. apply Hs; apply nth_In; auto.
Qed.
Lemma mean_perm k A A' B B' : Permutation A A' -> Permutation B B' -> mean_k k A B = mean_k k A' B'.
Proof. intros HA HB. unfold mean_k. rewrite (pairs_perm k A A' B B'), (Permutation_length HA), (Permutation_length HB) by auto. auto. Qed.
Lemma mean_swap k A B : (forall a b, In a A -> In b B -> k a b = k b a) -> mean_k k A B = mean_k k B A.
Proof. intros H. unfold mean_k. rewrite (pairs_swap k A B H), (Rmult_comm (INR (length A))). auto. Qed.
Lemma rows_perm m A B : Permutation A B -> rows m A -> rows m B.
Proof. intros HP HA r Hr. apply HA. apply (Permutation_in _ (Permutation_sym HP)). auto. Qed.

(** * Matched rows *)
Lemma skipn_nth {A} (l : list A) : forall k r, nth_error l k = Some r -> skipn k l = r :: skipn (S k) l.
Proof. induction l as [|a l IH]; intros [|k] r H; simpl in H; try discriminate; [injection H as <-; auto|]. apply (IH k r H). Qed.
Lemma mapM_matched (g : list R -> list R -> R) Y : forall k M, length M = (k + length Y)%nat ->
  mapM (fun iy => do r <- nth_res IndexError M (fst iy); Ok (g (snd iy) r)) (combine (seq k (length Y)) Y) = Ok (map (fun yr => g (fst yr) (snd yr)) (combine Y (skipn k M))).
Proof.
  induction Y as [|y Y IH]; intros k M HL; [reflexivity|]. simpl in HL. cbn [length seq combine mapM fst snd].
  unfold nth_res at 1. destruct (nth_error M k) as [r|] eqn:E; [|apply nth_error_None in E; lia]. cbn [bind].
  rewrite (IH (S k) M) by lia. cbn [bind]. f_equal. rewrite (skipn_nth M k r E). reflexivity.
Qed.
Lemma mmdm_value q o beta mt Y M m : Y <> [] -> rows m Y -> mt Y = Ok M -> length M = length Y ->
  mmdm_compute q o beta mt None (Some Y) =
  Ok (beta * mean_k (k_ q) Y Y + sumR (map (fun yr => 2 - 2 * k_ q (fst yr) (snd yr)) (combine Y M)) / INR (length Y)).
Proof.
  intros HY RY Hmt HL. unfold mmdm_compute, mmd_Y. cbn [bind]. rewrite Hmt. cbn [bind]. rewrite (kmean_ok _ _ _ m) by auto. cbn [bind].
  rewrite (mapM_matched (fun y r => 2 - 2 * k_ q y r) Y 0 M) by auto. cbn [bind skipn]. rewrite fold_sumR, map_length, combine_length, HL, Nat.min_id. auto.
Qed.

(** * Compiled functions *)
Definition uniform (c : cache) (b : R) : Prop := forall e, In e c -> snd e = b.
Lemma lookup_uniform c b s v : uniform c b -> lookup c s = Some v -> v = b.
Proof.
  intros Hu. unfold lookup. destruct (find _ c) as [e|] eqn:E; [|discriminate]. intros H. injection H as <-. apply Hu. apply (find_some _ _ E).
Qed.
Lemma traced_uniform c s b : uniform c b -> fst (traced c s b) = b /\ uniform (snd (traced c s b)) b.
Proof.
  intros Hu. unfold traced. destruct (lookup c s) as [v|] eqn:E; cbn [fst snd].
  - split; auto. apply (lookup_uniform c b s v Hu E).
  - split; auto. intros e [<-|He]; auto.
Qed.
Lemma shape_eqb_refl s : shape_eqb s s = true.
Proof. destruct s as [[[a b] c] d]. simpl. rewrite !Nat.eqb_refl. auto. Qed.
(** after a call, the value used for that shape is kept whatever happens to beta *)
Lemma traced_sticky c s b b' : fst (traced (snd (traced c s b)) s b') = fst (traced c s b).
Proof.
  unfold traced at 2 3. destruct (lookup c s) as [v|] eqn:E; cbn [fst snd].
  - unfold traced. rewrite E. auto.
  - unfold traced, lookup. cbn [find fst]. rewrite shape_eqb_refl. auto.
Qed.

(** histories of an indicator *)
Inductive op : Type :=
  | SetB (b : R)
  | Derive (mt : list (list R) -> res (list (list R))) (X : list (list R)) (Y : option (list (list R))) (J : option (nat -> nat -> nat -> R)) (hes : bool).
Definition step (q : kern) (o : mmd) (s : mmdm) (e : op) : mmdm :=
  match e with
  | SetB b => set_beta s b
  | Derive mt X Y J hes => match mmdm_derivatives q o s mt X Y J hes with Ok (_, _, s') => s' | Exn _ => s end
  end.
Definition run (q : kern) (o : mmd) (s : mmdm) (h : list op) : mmdm := fold_left (step q o) h s.
Definition good (s : mmdm) : Prop := uniform (mm_grad s) (mm_beta s) /\ uniform (mm_hess s) (mm_beta s).
Lemma deriv_state q o s mt X Y J hes G H s' : mmdm_derivatives q o s mt X Y J hes = Ok (G, H, s') ->
  mm_beta s' = mm_beta s /\ exists sh, mm_grad s' = snd (traced (mm_grad s) sh (mm_beta s)) /\
    mm_hess s' = if hes then snd (traced (mm_hess s) sh (mm_beta s)) else mm_hess s.
Proof.
  unfold mmdm_derivatives. cbv zeta. destruct (mmd_YJ _ _ _ _) as [[Y' J']|]; cbn [bind]; [|discriminate]. destruct (mt Y') as [M|]; cbn [bind]; [|discriminate].
  destruct (negb _); [discriminate|]. destruct (traced (mm_grad s) (shape_of Y' M) (mm_beta s)) as [bg cg] eqn:Eg. destruct hes.
  - destruct (traced (mm_hess s) (shape_of Y' M) (mm_beta s)) as [bh ch] eqn:Eh. intros E. injection E as <- <- <-. split; auto. exists (shape_of Y' M). rewrite Eg, Eh. auto.
  - intros E. injection E as <- <- <-. split; auto. exists (shape_of Y' M). rewrite Eg. auto.
Qed.
Lemma run_good q o h : forall s, good s -> (forall b, In (SetB b) h -> b = mm_beta s) -> good (run q o s h) /\ mm_beta (run q o s h) = mm_beta s.
Proof.
  induction h as [|e h IH]; intros s Hg Hb; [auto|]. unfold run. cbn [fold_left]. fold (run q o (step q o s e) h).
  assert (Hs : good (step q o s e) /\ mm_beta (step q o s e) = mm_beta s).
  { destruct e as [b|mt X Y J hes]; cbn [step].
    - rewrite (Hb b) by (simpl; auto). destruct s; auto.
    - destruct (mmdm_derivatives q o s mt X Y J hes) as [[[G H] s']|] eqn:E; [|auto].
      destruct (deriv_state _ _ _ _ _ _ _ _ _ _ _ E) as (E1 & sh & E2 & E3). split; auto. destruct Hg as [Hg1 Hg2]. split; rewrite E1.
      + rewrite E2. apply traced_uniform; auto.
      + rewrite E3. destruct hes; auto. apply traced_uniform; auto. }
  destruct Hs as [Hs1 Hs2]. destruct (IH (step q o s e) Hs1) as [H1 H2].
  - intros b Hin. rewrite Hs2. apply Hb. simpl; auto.
  - split; auto. rewrite H2. auto.
Qed.

(** * Transposition *)
Lemma transpose_len X d : X <> [] -> rows d X -> length (transpose X) = d /\ (0 < d -> rows (length X) (transpose X))%nat.
Proof.
  intros H0 HX. unfold transpose. rewrite (cols_X d X) by auto. split; [rewrite map_length, seq_length; auto|].
  intros Hd r Hr. apply in_map_iff in Hr as (j & <- & _). apply map_length.
Qed.
Lemma transpose_twice X d : X <> [] -> rows d X -> (0 < d)%nat -> transpose (transpose X) = X.
Proof.
  intros H0 HX Hd. destruct (transpose_len X d H0 HX) as [L1 L2]. specialize (L2 Hd).
  assert (HT0 : transpose X <> []) by (destruct (transpose X); simpl in *; [lia|congruence]).
  unfold transpose at 1. rewrite (cols_X (length X) (transpose X)) by auto. apply nth_ext with [] []; [rewrite map_length, seq_length; auto|].
  intros i Hi. rewrite map_length, seq_length in Hi. rewrite (nth_map_default (fun j => map (fun r => nth j r 0) (transpose X)) (seq 0 (length X)) i 0%nat) by (rewrite seq_length; auto).
  rewrite seq_nth by auto. simpl. assert (Hx : length (nth i X []) = d) by (apply HX, nth_In; auto).
  apply nth_ext with 0 0; [rewrite map_length; lia|]. intros a Ha. rewrite map_length, L1 in Ha.
  rewrite (nth_map_default (fun r => nth i r 0) (transpose X) a []) by lia. unfold transpose. rewrite (cols_X d X) by auto.
  rewrite (nth_map_default (fun j => map (fun r => nth j r 0) X) (seq 0 d) a 0%nat) by (rewrite seq_length; auto). rewrite seq_nth by auto. simpl.
  rewrite (nth_map_default (fun r => nth a r 0) X i []) by auto. auto.
Qed.
Lemma check_transposed n X : X <> [] -> rows n X -> (0 < n)%nat -> length X <> n -> check_X n (transpose X) = X.
Proof.
  intros H0 HX Hn HN. destruct (transpose_len X n H0 HX) as [L1 L2]. specialize (L2 Hn). 
  assert (HT0 : transpose X <> []) by (destruct (transpose X); simpl in *; [lia|congruence]).
  unfold check_X. rewrite (cols_X (length X) (transpose X)) by auto. destruct (Nat.eqb_spec (length X) n); [congruence|]. apply (transpose_twice X n); auto.
Qed.

(** * Trial evaluations *)
Lemma list_eq_nth_error {A} (l l' : list A) : (forall i, nth_error l i = nth_error l' i) -> l = l'.
Proof.
  revert l'. induction l as [|a l IH]; intros [|b l'] H; auto; try (specialize (H 0%nat); discriminate).
  f_equal; [specialize (H 0%nat); simpl in H; congruence|]. apply IH. intros i. apply (H (S i)).
Qed.
Lemma single_match lsa hausdorff kmedoids n_obj s Y s' L M mi : lsa_ok lsa -> kmedoids_ok kmedoids -> length (rs_ref s) = 1%nat ->
  rs_medoids s = [Some L] -> rs_matched s = Some (M, mi) -> Permutation L M -> length Y = length L ->
  match_Y lsa hausdorff kmedoids n_obj s Y = Ok s' -> Permutation (reference_set s') (reference_set s).
Proof.
  intros Hl Hkm H1 HL HM HP HY E. destruct (rs_rematch s) eqn:Er; [|unfold match_Y in E; rewrite Er, HM in E; injection E as <-; apply Permutation_refl].
  assert (Hwf : wf s) by (split; [rewrite HL; simpl; auto|destruct (rs_ref s); simpl in H1; [lia|congruence]]).
  destruct (match_spec lsa hausdorff kmedoids Hl Hkm n_obj s Y s' Hwf (or_introl Er) E) as (ix & parts & vs & out & mi' & A1 & A2 & A3 & A4 & A5 & A6 & A7 & A8 & A9).
  unfold partition_Y in A1. rewrite H1, Nat.eqb_refl in A1. injection A1 as <- <-. 
  assert (Hc : covers [seq 0 (length Y)] (length Y)) by (unfold covers; simpl; rewrite app_nil_r; apply Permutation_refl).
  destruct (A9 Hc) as (B1 & _ & B3). unfold match_components in A2. rewrite H1 in A2. cbn in A2. injection A2 as <-.
  specialize (B3 0%nat ltac:(simpl; lia)). cbv zeta in B3. cbn [nth] in B3. destruct B3 as (comp & X & M' & C1 & C2 & C3 & C4 & C5).
  rewrite HL in C2. cbn [nth] in C2. unfold medoids_for in C2. rewrite seq_length, HY, Nat.eqb_refl in C2. injection C2 as <-.
  unfold reference_set. rewrite A6, HM. apply perm_trans with L; auto.
  destruct C5 as (C5 & _ & C6 & _). assert (E' : out = M'); [|rewrite E'; auto].
  apply (list_eq_nth_error out M'). intros i. destruct (lt_dec i (length Y)) as [Hi|Hi].
  - pose proof (f_equal (fun l => nth_error l i) C5) as E1. cbv beta in E1. rewrite !nth_error_map in E1.
    rewrite (nth_error_nth' (seq 0 (length Y)) 0%nat) in E1 by (rewrite seq_length; auto). rewrite seq_nth in E1 by auto. simpl in E1.
    rewrite seq_length in C4. destruct (nth_error out i) eqn:E2; destruct (nth_error M' i) eqn:E3; simpl in E1; congruence.
  - rewrite seq_length in C4. rewrite (proj2 (nth_error_None out i)), (proj2 (nth_error_None M' i)) by lia. auto.
Qed.
