(** Two objectives: the hypervolume and its derivatives are always defined; the Hessian in objective space. *)
From Coq Require Import List Arith Bool Reals ZArith Lia Lra Permutation.
From Verif Require Import Num Exn ListAux NDSSpec HVModel HVTheory HVSpec HVTop HVDModel HVDSpec HVDProof.
Import ListNotations.
Open Scope R_scope.

(** * the value *)
Section Links.
Variable pts : list (list R).
Definition same_links (m m' : @mem R) : Prop := (forall i x, nx m i x = nx m' i x) /\ forall i x, pv m i x = pv m' i x.
Lemma extend_same ns i : forall m m', same_links m m' -> same_links (extend pts ns i m) (extend pts ns i m').
Proof.
  unfold extend. induction ns as [|a ns IH]; intros m m' H; auto. cbn [fold_left]. apply IH. destruct H as [H1 H2]. split; intros j x; cbn; unfold upd2; rewrite ?H2; repeat destruct (_ && _); auto.
Qed.
Lemma pre_process_same ar is : forall ns m m', same_links m m' -> same_links (pre_process pts ar is ns m) (pre_process pts ar is ns m').
Proof. induction is as [|i is IH]; intros ns m m' H; auto. cbn [pre_process]. apply IH, extend_same, H. Qed.
Lemma sweep2_same f : forall m m' q p h v, same_links m m' -> sweep2 pts f m q p h v = sweep2 pts f m' q p h v.
Proof.
  induction f as [|f IH]; intros m m' q p h v H; auto. cbn [sweep2]. destruct (p =? length pts)%nat; auto. destruct (cg pts q 1); auto. cbn [bind]. destruct (cg pts p 1); auto. cbn [bind]. destruct (cg pts p 0); auto. cbn [bind].
  rewrite (proj1 H 1%nat p). apply IH, H.
Qed.
End Links.
(** the sentinel plays no part for two objectives *)
Lemma hv2_minf minf minf' ar F ref : length ref = 2%nat -> hypervolume minf ar F ref = hypervolume minf' ar F ref.
Proof.
  intros H. unfold hypervolume. rewrite H. set (pts := relevant_points F ref).
  assert (S : same_links (pre_process pts ar (seq 0 2) (seq 0 (length pts)) (init_mem pts minf)) (pre_process pts ar (seq 0 2) (seq 0 (length pts)) (init_mem pts minf'))).
  { apply pre_process_same. split; reflexivity. }
  set (m := pre_process _ _ _ _ _) in *. set (m' := pre_process pts ar (seq 0 2) (seq 0 (length pts)) (init_mem pts minf')) in *. clearbody m m'. cbn [hv_recursive]. destruct (length pts =? 0)%nat; auto. cbn [Nat.eqb].
  rewrite (proj1 S 1%nat (length pts)). destruct (cg pts _ 0); auto. cbn [bind]. rewrite (proj1 S 1%nat (nx m' 1 (length pts))). rewrite (sweep2_same _ _ m m'); auto. destruct (sweep2 _ _ _ _ _ _ _); auto.
Qed.
Fixpoint lowest (l : list R) : R := match l with [] => 0 | a :: l => Rmin a (lowest l) end.
Lemma lowest_le l x : In x l -> lowest l <= x.
Proof. induction l as [|a l IH]; intros []; cbn [lowest]. subst. apply Rmin_l. eapply Rle_trans; [apply Rmin_r|]; auto. Qed.
Lemma hv2_value minf ar F ref : argsort_ok ar -> length ref = 2%nat -> (forall p, In p F -> length p = 2%nat) -> hypervolume minf ar F ref = Ok (hv (length ref) (co ref) (map co F)).
Proof.
  intros Ha Hl HF. rewrite (hv2_minf minf (lowest (concat F) - Rabs (nth 0 ref 0) - Rabs (nth 1 ref 0)) ar F ref Hl). apply hypervolume_correct; auto; try lia. intros p Hp; rewrite Hl; auto.
  intros p k Hp _ Hk. assert (Hc : In (nth k p 0) (concat F)) by (apply in_concat; exists p; split; auto; apply nth_In; rewrite HF; auto; lia).
  pose proof (lowest_le _ _ Hc). pose proof (Rle_abs (nth 0 ref 0)). pose proof (Rle_abs (nth 1 ref 0)). pose proof (Rabs_pos (nth 0 ref 0)). pose proof (Rabs_pos (nth 1 ref 0)).
  assert (k = 0 \/ k = 1)%nat as [->| ->] by lia; lra.
Qed.

(** * the gradient *)
Lemma rows2 m (Y : list (list R)) : (forall y, In y Y -> length y = m) -> forallb (fun p => Nat.eqb (length p) m) Y = true.
Proof. intros H. apply forallb_forall. intros y Hy. apply Nat.eqb_eq. auto. Qed.
Lemma dY_two minf ar Y ref : Y <> [] -> length ref = 2%nat -> (forall y, In y Y -> length y = 2%nat) -> exists g, compute_HVdY minf ar 2 Y ref = Ok g.
Proof.
  intros HY Hr HL. unfold compute_HVdY. rewrite (rows2 2 Y HL). cbn [negb]. destruct (nondominated_spec Y 2 HY ltac:(lia) HL) as (nd & E & _). rewrite E. cbn [bind]. unfold hypervolume_dY. rewrite Hr. cbn [bind]. eauto.
Qed.

(** * the Hessian *)
(** the point that moves against [i] in objective [1 - k]: of those with a smaller value of objective [k],
    (one of) the nearest in the other *)
Definition before (Y : list (list R)) (i k : nat) (b : option nat) : Prop :=
  match b with
  | None => forall j, (j < length Y)%nat -> coord Y i k <= coord Y j k
  | Some j => (j < length Y)%nat /\ coord Y j k < coord Y i k /\
      forall j', (j' < length Y)%nat -> coord Y j' k < coord Y i k -> coord Y j (1 - k) <= coord Y j' (1 - k)
  end.
Definition unit2 (k : nat) (v : R) : list R := if (k =? 0)%nat then [0; v] else [v; 0].
Definition column2 (Y : list (list R)) (i k : nat) (b : option nat) : list (list R) :=
  map (fun j => if match b with Some j' => (j' =? j)%nat | None => false end then unit2 k (-1)
                else if (j =? i)%nat then unit2 k 1 else [0; 0]) (seq 0 (length Y)).
Lemma delete2 (y : list R) k : length y = 2%nat -> (k < 2)%nat -> delete_at k y = [nth (1 - k) y 0].
Proof. intros Hy Hk. destruct y as [|a [|b [|? ?]]]; try discriminate. assert (k = 0 \/ k = 1)%nat as [->| ->] by lia; reflexivity. Qed.
Lemma argmin_first (a : R) l : (forall x, In x l -> a <= x) -> argmin (a :: l) = Ok 0%nat.
Proof.
  intros H. cbn [argmin]. f_equal. generalize 1%nat at 1. induction l as [|x l IH]; intros p; auto. cbn [argmin_aux].
  assert (E : nltb x a = false). { destruct (nltb x a) eqn:E; auto. apply nltb_true in E. numR. specialize (H x (or_introl eq_refl)). lra. }
  rewrite E. apply IH. intros y Hy. apply H. simpl; auto.
Qed.
Lemma hess_column2 minf ar Y ref i k : length ref = 2%nat -> (forall y, In y Y -> length y = 2%nat) -> (i < length Y)%nat -> (k < 2)%nat ->
  (forall j, (j < length Y)%nat -> ~ dominates (nth j Y []) (nth i Y [])) ->
  exists b, before Y i k b /\ hess_column minf ar 2 Y ref i k = Ok (column2 Y i k b).
Proof.
  intros Hr HY Hi Hk Hnd. assert (Hro : rows_ok Y ref) by (intros y Hy; rewrite Hr; auto).
  destruct (project_spec Y ref k i 1 Hro Hi Hr ltac:(lia) ltac:(lia)) as (fr & idx & E & L & Nd & H1 & H2 & H3 & _).
  assert (HL : forall j, (j < length Y)%nat -> length (nth j Y []) = 2%nat) by (intros; apply HY, nth_In; auto).
  assert (Hlow : forall j, (j < length Y)%nat -> coord Y j k < coord Y i k -> coord Y i (1 - k) < coord Y j (1 - k)).
  { intros j Hj Hlt. apply Rnot_le_lt. intros Hle. apply (Hnd j Hj). split; [rewrite !HL; auto|]. rewrite !HL by auto. split.
    - intros l Hl. destruct (Nat.eq_dec l k) as [->|Hne]; [unfold coord in Hlt; lra|]. replace l with (1 - k)%nat by lia. exact Hle.
    - exists k. split; auto. }
  unfold hess_column. rewrite E. cbn [bind]. rewrite !(delete2 _ k) by auto. cbn [length].
  assert (Lidx : (length idx <= 1)%nat).
  { (* one column: the minimum only *) unfold project in E. rewrite (nth_error_nth' Y [] Hi) in E. destruct (Nat.eqb_spec (length (map (delete_at k) (gather [] Y (filter (fun j => nltb (nth k (nth j Y []) nzero) (nth k (nth i Y []) nzero)) (seq 0 (length Y)))))) 0) as [E0|E0].
    - injection E as _ E. unfold gather in E0. rewrite !map_length in E0. change nzero with 0 in E0. rewrite E in E0. lia.
    - rewrite (delete2 ref k) in E by auto. cbn [length] in E. unfold nondominated_indices in E. cbn [Nat.eqb] in E. destruct (argmin _) as [q|]; cbn [bind] in E; [|discriminate]. injection E as _ E. rewrite <- E. unfold gather. cbn. lia. }
  set (y := nth (1 - k) (nth i Y []) 0). assert (Ey : y = coord Y i (1 - k)) by reflexivity.
  destruct idx as [|j0 [|? ?]]; [| |simpl in Lidx; lia].
  - exists None. destruct fr; [|discriminate]. split.
    + intros j Hj. apply Rnot_lt_le. intros Hlt. destruct (H2 j Hj Hlt) as (s & Hs & _). simpl in Hs. lia.
    + unfold nondominated_indices. cbn [Nat.eqb concat app]. rewrite (argmin_first y []) by (intros ? []). cbn. assert (k = 0 \/ k = 1)%nat as [->| ->] by lia; cbn -[seq]; unfold column2, unit2; cbn -[seq]; f_equal; apply map_ext; intros j; destruct (j =? i)%nat; auto; repeat f_equal; numR; lra.
  - destruct fr as [|f0 [|? ?]]; try discriminate. destruct (H1 0%nat ltac:(simpl; lia)) as (Hj0 & Hlt & Ef). cbn [nth] in Hj0, Hlt, Ef. subst f0. rewrite (delete2 _ k) by auto.
    exists (Some j0). pose proof (Hlow j0 Hj0 Hlt) as Hyj. split.
    + split; auto. split; auto. intros j' Hj' Hlt'. apply Rnot_lt_le. intros Hc. apply (H3 0%nat j' ltac:(simpl; lia) Hj' Hlt'). cbn [nth]. rewrite !(delete2 _ k) by auto.
      split; auto. split; cbn [length].
      * intros l Hl. replace l with 0%nat by lia. cbn [nth]. unfold coord in Hc. lra.
      * exists 0%nat. split; auto.
    + set (z := nth (1 - k) (nth j0 Y []) 0). assert (Ez : z = coord Y j0 (1 - k)) by reflexivity.
      unfold nondominated_indices. cbn [Nat.eqb concat app]. rewrite (argmin_first y [z]) by (intros x [<-|[]]; lra). cbn [bind gather map nth].
      set (rr := nth (1 - k) ref 0). unfold hypervolume_dY. cbn [length bind combine filter fst snd Nat.eqb map concat app].
      assert (Enl : nltb z y = false). { destruct (nltb z y) eqn:En; auto. apply nltb_true in En. numR. lra. }
      assert (k = 0 \/ k = 1)%nat as [->| ->] by lia; cbn -[seq nltb z y]; rewrite Enl; cbn -[seq]; unfold column2, unit2; cbn -[seq]; f_equal; apply map_ext; intros j; destruct (j0 =? j)%nat; auto; try (destruct (j =? i)%nat; auto); repeat f_equal; numR; lra.
Qed.
Lemma dY2_two minf ar Y ref : Y <> [] -> length ref = 2%nat -> (forall y, In y Y -> length y = 2%nat) -> exists H, compute_HVdY2 minf ar 2 Y ref = Ok H.
Proof.
  intros HY Hr HL. unfold compute_HVdY2. rewrite (rows2 2 Y HL). cbn [negb]. destruct (nondominated_spec Y 2 HY ltac:(lia) HL) as (nd & E & _ & Hin & _ & Hdom & _). rewrite E. cbn [bind].
  assert (G : forall l, (forall i, In i l -> (i < length Y)%nat) -> exists H, map_res (fun i => if existsb (Nat.eqb i) nd then map_res (hess_column minf ar 2 Y ref i) (seq 0 2) else Ok (repeat (repeat (repeat nzero 2) (length Y)) 2)) l = Ok H).
  { induction l as [|i l IH]; intros Hl. cbn; eauto. cbn [map_res]. destruct IH as [H0 E0]. { intros; apply Hl; simpl; auto. }
    destruct (existsb (Nat.eqb i) nd) eqn:Ee.
    - apply existsb_exists in Ee as (i' & Hi' & Eq). apply Nat.eqb_eq in Eq. subst i'. assert (Hc : forall k, (k < 2)%nat -> exists H, hess_column minf ar 2 Y ref i k = Ok H).
      { intros k Hk. destruct (hess_column2 minf ar Y ref i k) as (b & _ & Eb); eauto. intros j Hj Hd. apply (Hdom i Hi'). exists j. split; auto. }
      destruct (Hc 0%nat ltac:(lia)) as [a0 A0]. destruct (Hc 1%nat ltac:(lia)) as [a1 A1]. assert (A2 : map_res (hess_column minf ar 2 Y ref i) (seq 0 2) = Ok [a0; a1]) by (cbn [map_res seq]; rewrite A0; cbn [bind]; rewrite A1; reflexivity). rewrite A2. cbn [bind]. rewrite E0. cbn [bind]. eauto.
    - cbn [bind]. rewrite E0. cbn [bind]. eauto. }
  apply G. intros i Hi. apply in_seq in Hi. lia.
Qed.
