(** Evaluation of the specification of volumes and derivatives at integer points, and
    decision procedures for the hypotheses of the theorems (used by the examples). *)
From Coq Require Import List Arith Lia Bool ZArith Reals Lra FunctionalExtensionality.
From Verif Require Import Num Exn ListAux NDSSpec HVModel HVSpec HVTheory HVExtra HVDSpec HVDTheory HVDProof HVHTheory.
Import ListNotations.
Open Scope nat_scope.

Definition zpt := nat -> Z.
Definition zr (p : zpt) : pt := fun k => IZR (p k).
Definition zco (p : list Z) : zpt := fun k => nth k p 0%Z.
Fixpoint zprodn (d : nat) (a : zpt) : Z := match d with O => 1%Z | S d' => (zprodn d' a * a d')%Z end.
Definition zjoin (p c : zpt) : zpt := fun k => Z.max (p k) (c k).
(* points are tabulated to keep the evaluation linear *)
Definition ztab (d : nat) (p : zpt) : zpt := let l := map p (seq 0 d) in fun k => nth k l (p k).
Definition zbox (d : nat) (r q : zpt) : Z := zprodn d (fun k => Z.max 0 (r k - q k)).
Fixpoint zhvs (d : nat) (r : zpt) (P : list zpt) (c : zpt) : Z :=
  match P with
  | [] => 0%Z
  | p :: P' => let j := ztab d (zjoin p c) in (zbox d r j + zhvs d r P' c - zhvs d r P' j)%Z
  end.
Fixpoint zhv (d : nat) (r : zpt) (P : list zpt) : Z :=
  match P with
  | [] => 0%Z
  | p :: P' => (zbox d r p + zhv d r P' - zhvs d r P' p)%Z
  end.
Definition zexc (d : nat) (r : zpt) (P : list zpt) (q : zpt) : Z := (zbox d r q - zhvs d r P q)%Z.
Definition zdrop (k : nat) (p : zpt) : zpt := fun j => if (j <? k) then p j else p (S j).
Definition zslope (d : nat) (r : zpt) (P : list zpt) (q : zpt) (k : nat) : Z :=
  zexc d (zdrop k r) (map (zdrop k) (filter (fun p => Z.ltb (p k) (q k)) P)) (zdrop k q).

Lemma ztab_eq d p : ztab d p = p.
Proof.
  extensionality k. unfold ztab. destruct (le_lt_dec d k).
  - apply nth_overflow. rewrite map_length, seq_length; auto.
  - rewrite (nth_indep _ (p k) (p 0)) by (rewrite map_length, seq_length; auto).
    rewrite map_nth, seq_nth; auto.
Qed.
Lemma IZR_max a b : IZR (Z.max a b) = Rmax (IZR a) (IZR b).
Proof.
  destruct (Z.max_spec a b) as [[Hl ->]|[Hl ->]].
  - rewrite Rmax_right; auto. apply IZR_le. lia.
  - rewrite Rmax_left; auto. apply IZR_le. lia.
Qed.
Lemma zr_join p c : zr (zjoin p c) = pjoin (zr p) (zr c).
Proof. extensionality k. apply IZR_max. Qed.
Lemma zr_prodn d a : prodn d (zr a) = IZR (zprodn d a).
Proof. induction d as [|d IH]; simpl; auto. rewrite IH, mult_IZR. reflexivity. Qed.
Lemma zr_box d r q : box d (zr r) (zr q) = IZR (zbox d r q).
Proof.
  unfold box, zbox. rewrite <- zr_prodn. apply prodn_ext. intros k _. unfold zr. rewrite IZR_max, minus_IZR. auto.
Qed.
Lemma zr_hvs d r P c : hvs d (zr r) (map zr P) (zr c) = IZR (zhvs d r P c).
Proof.
  revert c. induction P as [|p P IH]; intros c; cbn [hvs zhvs map]; auto.
  rewrite ztab_eq, <- zr_join, zr_box, !IH, minus_IZR, plus_IZR. auto.
Qed.
Lemma zr_hv d r P : hv d (zr r) (map zr P) = IZR (zhv d r P).
Proof.
  induction P as [|p P IH]; cbn [hv zhv map]; auto. rewrite zr_box, zr_hvs, IH, minus_IZR, plus_IZR. auto.
Qed.
Lemma zr_exc d r P q : exc d (zr r) (map zr P) (zr q) = IZR (zexc d r P q).
Proof. unfold exc, zexc. rewrite zr_box, zr_hvs, minus_IZR. auto. Qed.
Lemma zr_drop k p : drop k (zr p) = zr (zdrop k p).
Proof. extensionality j. unfold drop, zr, zdrop. destruct (j <? k); auto. Qed.
Lemma zr_ltb a b : ltb (IZR a) (IZR b) = Z.ltb a b.
Proof.
  unfold ltb. destruct (Rlt_dec _ _) as [Hl|Hl].
  - symmetry. apply Z.ltb_lt. apply lt_IZR; auto.
  - symmetry. apply Z.ltb_ge. apply Rnot_lt_le in Hl. apply le_IZR; auto.
Qed.
Lemma zr_filter (P : list zpt) (q : zpt) k :
  filter (fun p : pt => ltb (p k) (zr q k)) (map zr P) = map zr (filter (fun p => Z.ltb (p k) (q k)) P).
Proof.
  induction P as [|p P IH]; simpl; auto. unfold zr at 1 2. rewrite zr_ltb. destruct (Z.ltb _ _); simpl; rewrite IH; auto.
Qed.
Lemma zr_slope d r P q k : slope_lt d (zr r) (map zr P) (zr q) k = IZR (zslope d r P q k).
Proof.
  unfold slope_lt, zslope. rewrite zr_filter, !zr_drop, map_map.
  rewrite (map_ext (fun x => drop k (zr x)) (fun x => zr (zdrop k x))) by (intros; apply zr_drop).
  rewrite <- map_map. apply zr_exc.
Qed.
Lemma co_IZR p : co (map IZR p) = zr (zco p).
Proof. extensionality k. unfold co, zr, zco. change 0%R with (IZR 0). apply map_nth. Qed.
Lemma map_co_IZR F : map co (map (map IZR) F) = map zr (map zco F).
Proof. rewrite !map_map. apply map_ext. intros. apply co_IZR. Qed.
Lemma coord_IZR F i k : coord (map (map IZR) F) i k = IZR (nth k (nth i F []) 0%Z).
Proof.
  unfold coord. change (@nil R) with (map IZR []). rewrite map_nth. change 0%R with (IZR 0). apply map_nth.
Qed.

Definition zHV (F : list (list Z)) (ref : list Z) : Z := zhv (length ref) (zco ref) (map zco F).
Lemma HV_eval F ref : HVof (map (map IZR) F) (map IZR ref) = IZR (zHV F ref).
Proof. rewrite map_length, co_IZR, map_co_IZR. apply zr_hv. Qed.
Lemma is_hv_eval F ref v : rows_ok (map (map IZR) F) (map IZR ref) -> zHV F ref = v ->
  is_hypervolume (map (map IZR) F) (map IZR ref) (IZR v).
Proof. intros Hr <-. apply is_hv_iff; auto. symmetry. apply HV_eval. Qed.

Definition zgrad (F : list (list Z)) (ref : list Z) (i k : nat) : Z :=
  (- zslope (length ref - 1) (zco ref) (map zco F) (zco (nth i F [])) k)%Z.
Lemma nthrow_IZR F i : nth i (map (map IZR) F) [] = map IZR (nth i F []).
Proof. change (@nil R) with (map IZR []). apply map_nth. Qed.
Lemma gradf_eval F ref i k : gradf (map (map IZR) F) (map IZR ref) i k = IZR (zgrad F ref i k).
Proof.
  unfold gradf, zgrad. rewrite map_length, co_IZR, map_co_IZR, nthrow_IZR, co_IZR, zr_slope, opp_IZR. auto.
Qed.

Definition zpk (F : list (list Z)) (k a : nat) : zpt := zdrop k (zco (nth a F [])).
Definition zidx (F : list (list Z)) (i k : nat) : list nat :=
  filter (fun a => Z.ltb (nth k (nth a F []) 0%Z) (nth k (nth i F []) 0%Z)) (seq 0 (length F)).
Definition zhess (F : list (list Z)) (ref : list Z) (d i k j l : nat) : Z :=
  if (l =? k) then 0%Z
  else if (j =? i) then zslope d (zdrop k (zco ref)) (map (zpk F k) (zidx F i k)) (zpk F k i) (un k l)
  else if Z.ltb (nth k (nth j F []) 0%Z) (nth k (nth i F []) 0%Z) && Z.ltb (nth l (nth i F []) 0%Z) (nth l (nth j F []) 0%Z)
  then (- zslope d (zdrop k (zco ref)) (map (zpk F k) (zidx F i k)) (zjoin (zpk F k j) (zpk F k i)) (un k l))%Z
  else 0%Z.
Lemma pk_IZR F k a : pk (map (map IZR) F) k a = zr (zpk F k a).
Proof. unfold pk, zpk. rewrite nthrow_IZR, co_IZR. apply zr_drop. Qed.
Lemma hessf_eval F ref d i k j l : hessf (map (map IZR) F) (map IZR ref) d i k j l = IZR (zhess F ref d i k j l).
Proof.
  unfold hessf, zhess.
  assert (E : idxlt (map (map IZR) F) i k = zidx F i k).
  { unfold idxlt, zidx. rewrite map_length. apply filter_ext. intros a. rewrite !coord_IZR. apply zr_ltb. }
  rewrite E, !coord_IZR, !zr_ltb, !pk_IZR, co_IZR, zr_drop, <- zr_join.
  rewrite (map_ext (pk (map (map IZR) F) k) (fun a => zr (zpk F k a))) by (intros; apply pk_IZR).
  rewrite <- (map_map (zpk F k) zr), !zr_slope.
  destruct (l =? k); auto. destruct (j =? i); auto. destruct (_ && _); auto. rewrite opp_IZR. auto.
Qed.

(** deciders *)
Definition zall (N m : nat) (p : nat -> nat -> bool) : bool :=
  forallb (fun i => forallb (p i) (seq 0 m)) (seq 0 N).
Lemma zall_spec N m p : zall N m p = true -> forall i k, i < N -> k < m -> p i k = true.
Proof.
  unfold zall. rewrite forallb_forall. intros Hall i k Hi Hk.
  specialize (Hall i ltac:(apply in_seq; lia)). rewrite forallb_forall in Hall. apply Hall. apply in_seq; lia.
Qed.
Lemma nth_IZR l k : nth k (map IZR l) 0%R = IZR (nth k l 0%Z).
Proof. change 0%R with (IZR 0). apply map_nth. Qed.
Lemma inside_dec F ref :
  zall (length F) (length ref) (fun i k => Z.ltb (nth k (nth i F []) 0%Z) (nth k ref 0%Z)) = true ->
  inside (map (map IZR) F) (map IZR ref).
Proof.
  intros Hd i k Hi Hk. rewrite map_length in *. apply (zall_spec _ _ _ Hd i k) in Hk; auto.
  rewrite coord_IZR, nth_IZR. apply IZR_lt. apply Z.ltb_lt. auto.
Qed.
Lemma above_all_dec minf F ref :
  zall (length F) (length ref) (fun i k => Z.leb minf (nth k (nth i F []) 0%Z - nth k ref 0%Z)) = true ->
  above_all (IZR minf) (map (map IZR) F) (map IZR ref).
Proof.
  intros Hd i k Hi Hk. rewrite map_length in *. apply (zall_spec _ _ _ Hd i k) in Hk; auto.
  rewrite coord_IZR, nth_IZR, <- minus_IZR. apply IZR_le. apply Z.leb_le. auto.
Qed.
Definition zno_tie (F : list (list Z)) (i k : nat) : bool :=
  forallb (fun j => (j =? i) || negb (Z.eqb (nth k (nth j F []) 0%Z) (nth k (nth i F []) 0%Z))) (seq 0 (length F)).
Lemma no_tie_dec F i k : zno_tie F i k = true -> no_tie (map (map IZR) F) i k.
Proof.
  unfold zno_tie. rewrite forallb_forall. intros Hd j Hj Hne. rewrite map_length in Hj. rewrite !coord_IZR.
  specialize (Hd j ltac:(apply in_seq; lia)). apply orb_true_iff in Hd as [Hd|Hd].
  - apply Nat.eqb_eq in Hd. lia.
  - apply negb_true_iff, Z.eqb_neq in Hd. intros E. apply eq_IZR in E. auto.
Qed.
Lemma gp_dec F ref :
  zall (length F) (length ref) (fun i k => zno_tie F i k && negb (Z.eqb (nth k (nth i F []) 0%Z) (nth k ref 0%Z))) = true ->
  general_position (map (map IZR) F) (map IZR ref).
Proof.
  intros Hd. split; intros i k Hi Hk; rewrite map_length in *; pose proof (zall_spec _ _ _ Hd i k Hi Hk) as E;
    apply andb_true_iff in E as [E1 E2].
  - apply no_tie_dec; auto.
  - rewrite coord_IZR, nth_IZR. apply negb_true_iff, Z.eqb_neq in E2. intros E. apply eq_IZR in E. auto.
Qed.
Lemma rows_ok_zdec F ref : forallb (fun p => Nat.eqb (length p) (length ref)) F = true ->
  rows_ok (map (map IZR) F) (map IZR ref).
Proof.
  rewrite forallb_forall. intros Hd p Hp. apply in_map_iff in Hp as (q & <- & Hq).
  rewrite !map_length. apply Nat.eqb_eq. auto.
Qed.
Lemma mnd_dec F : zall (length F) (length F) (fun i j => (i =? j) ||
    existsb (fun k => Z.ltb (nth k (nth j F []) 0%Z) (nth k (nth i F []) 0%Z)) (seq 0 (length (nth i F [])))) = true ->
  mutually_nondominated (map (map IZR) F).
Proof.
  intros Hd i j Hi Hj Hne [Hl Hw]. rewrite map_length in *. pose proof (zall_spec _ _ _ Hd i j Hi Hj) as E.
  apply orb_true_iff in E as [E|E]; [apply Nat.eqb_eq in E; lia|].
  apply existsb_exists in E as (k & Hk & E). apply in_seq in Hk. apply Z.ltb_lt in E.
  rewrite nthrow_IZR, map_length in Hw. specialize (Hw k ltac:(lia)). rewrite !nthrow_IZR, !nth_IZR in Hw.
  apply le_IZR in Hw. lia.
Qed.
