(** The second derivatives of the hypervolume are symmetric. *)
From Coq Require Import List Arith Lia Reals Lra Bool.
From Coquelicot Require Import Coquelicot.
From Verif Require Import Num Exn ListAux NDSModel NDSSpec HVModel HVSpec HVTheory HVTop HVExtra
  HVDModel HVDSpec HVDTheory HVDProof HVDTop HVHTheory HVXModel HVXProof HVChain.
Import ListNotations.
Open Scope R_scope.

Lemma zero_derivative f a b : (forall t, Rmin a b <= t <= Rmax a b -> is_derive f t 0) -> f a = f b.
Proof.
  intros Hd. destruct (MVT_gen f a b (fun _ => 0)) as (c & _ & Hc).
  - intros x Hx. apply Hd. lra.
  - intros x Hx. apply continuity_pt_filterlim. apply (derive_continuous f x 0). apply Hd; auto.
  - lra.
Qed.

Lemma set_at_twice {A} i (x y : A) l : set_at i x (set_at i y l) = set_at i x l.
Proof. revert i. induction l as [|a l IH]; intros [|i]; simpl; auto. f_equal; auto. Qed.
Lemma set_at_comm {A} i j (x y : A) l : i <> j -> set_at i x (set_at j y l) = set_at j y (set_at i x l).
Proof. revert i j. induction l as [|a l IH]; intros [|i] [|j] H; simpl; auto; try congruence. f_equal. auto. Qed.

Lemma set_coord_twice F j l s t : (j < length F)%nat -> set_coord (set_coord F j l s) j l t = set_coord F j l t.
Proof.
  intros Hj. unfold set_coord. rewrite nth_set_at by auto. rewrite Nat.eqb_refl.
  rewrite set_at_twice. f_equal. apply set_at_twice.
Qed.
Lemma set_coord_comm F i k s j l t : (i < length F)%nat -> (j < length F)%nat -> k <> l ->
  set_coord (set_coord F i k s) j l t = set_coord (set_coord F j l t) i k s.
Proof.
  intros Hi Hj Hkl. unfold set_coord. rewrite !nth_set_at by auto.
  destruct (Nat.eqb_spec j i) as [->|Hne].
  - rewrite Nat.eqb_refl, !set_at_twice. f_equal. apply set_at_comm; auto.
  - destruct (Nat.eqb_spec i j); [congruence|]. apply set_at_comm; auto.
Qed.

Section Sym.
Variable ref : list R.
Variable d : nat.
Hypothesis Hd : length ref = S (S d).

Definition good (F : list (list R)) : Prop := rows_ok F ref /\ general_position F ref /\ inside F ref.

Lemma good_set F j l t : good F -> (j < length F)%nat -> (l < length ref)%nat -> safe F ref j l t -> good (set_coord F j l t).
Proof using All.
  intros (Hr & HG & Hin) Hj Hl [Ht1 Ht2]. split; [apply rows_set_coord; auto|].
  assert (Hlen : length (set_coord F j l t) = length F) by apply set_at_length.
  assert (Hin' : inside (set_coord F j l t) ref).
  { intros i k Hi Hk. rewrite Hlen in Hi. rewrite (coord_set F ref) by auto.
    destruct (Nat.eqb_spec i j); simpl; [|apply Hin; auto].
    destruct (Nat.eqb_spec k l); [subst; auto|apply Hin; auto]. }
  split; auto. split.
  - intros i k Hi Hk a Ha Hne. rewrite Hlen in Hi, Ha. rewrite !(coord_set F ref) by auto.
    destruct (Nat.eqb_spec k l) as [->|Hkl].
    + rewrite !andb_true_r. destruct (Nat.eqb_spec a j) as [->|Haj], (Nat.eqb_spec i j) as [->|Hij]; try congruence.
      * destruct (Ht2 i Hi ltac:(auto)) as [[? ?]|[? ?]]; lra.
      * destruct (Ht2 a Ha ltac:(auto)) as [[? ?]|[? ?]]; lra.
      * apply (proj1 HG); auto.
    + rewrite !andb_false_r. apply (proj1 HG); auto.
  - intros i k Hi Hk. specialize (Hin' i k Hi Hk). lra.
Qed.

Lemma good_partial F j l : good F -> (j < length F)%nat -> (l < length ref)%nat ->
  is_derive (fun t => HVof (set_coord F j l t) ref) (coord F j l) (gradf F ref j l).
Proof using All.
  intros (Hr & HG & Hin) Hj Hl.
  apply (slope_partial F ref j l (gradf F ref j l) Hj).
  - apply two_sided_slope; auto. apply (proj1 HG); auto.
  - intros t. apply is_hv_iff; auto. apply rows_set_coord; auto.
Qed.

Lemma good_own F j l : good F -> (j < length F)%nat -> (l < length ref)%nat ->
  is_derive (fun t => gradf (set_coord F j l t) ref j l) (coord F j l) 0.
Proof using All.
  intros (Hr & HG & Hin) Hj Hl. destruct (hess_affine F ref d Hr Hd HG Hin j l j l Hj Hl Hj Hl) as (e & He & Ha).
  apply (is_derive_ext_loc (fun t => gradf F ref j l)); [|apply @is_derive_const].
  exists (mkposreal e He). intros t Ht.
  unfold ball in Ht; simpl in Ht. unfold AbsRing_ball, abs, minus, plus, opp in Ht; simpl in Ht.
  apply Rabs_def2 in Ht. rewrite Ha by lra. unfold hessf. rewrite Nat.eqb_refl, Rmult_0_l, Rplus_0_r. reflexivity.
Qed.

(** the hypervolume is affine in one coordinate on the whole interval between its neighbours *)
Lemma good_affine F j l e : good F -> (j < length F)%nat -> (l < length ref)%nat ->
  (forall t, coord F j l - e <= t <= coord F j l + e -> safe F ref j l t) ->
  forall t, coord F j l - e <= t <= coord F j l + e ->
  HVof (set_coord F j l t) ref = HVof F ref + gradf F ref j l * (t - coord F j l).
Proof using All.
  intros Hg Hj Hl Hs t Ht.
  assert (Hgt : forall t, coord F j l - e <= t <= coord F j l + e -> good (set_coord F j l t)).
  { intros; apply good_set; auto. }
  assert (Hlen : forall t, length (set_coord F j l t) = length F) by (intros; apply set_at_length).
  assert (Hco : forall t, coord (set_coord F j l t) j l = t).
  { intros u. rewrite (coord_set F ref) by (auto; apply Hg). rewrite !Nat.eqb_refl. reflexivity. }
  assert (Hbd : forall u t, coord F j l - e <= t <= coord F j l + e ->
    Rmin (coord F j l) t <= u <= Rmax (coord F j l) t -> coord F j l - e <= u <= coord F j l + e).
  { intros u s Hs1. unfold Rmin, Rmax. destruct (Rle_dec (coord F j l) s); lra. }
  assert (Hc : forall t, coord F j l - e <= t <= coord F j l + e -> gradf (set_coord F j l t) ref j l = gradf F ref j l).
  { intros s Hs1. rewrite <- (set_coord_same F j l Hj) at 2. symmetry.
    apply (zero_derivative (fun t => gradf (set_coord F j l t) ref j l)). intros u Hu.
    specialize (Hbd u s Hs1 Hu). pose proof (good_own (set_coord F j l u) j l (Hgt u Hbd) ltac:(rewrite Hlen; auto) Hl) as D.
    rewrite Hco in D. apply (is_derive_ext (fun t => gradf (set_coord (set_coord F j l u) j l t) ref j l)); [|exact D].
    intros v. cbv beta. rewrite set_coord_twice; auto. }
  pose proof (zero_derivative (fun t => HVof (set_coord F j l t) ref - gradf F ref j l * t) (coord F j l) t) as Z.
  cbv beta in Z. rewrite (set_coord_same F j l Hj) in Z.
  assert (E : HVof F ref - gradf F ref j l * coord F j l = HVof (set_coord F j l t) ref - gradf F ref j l * t).
  { apply Z. intros u Hu. specialize (Hbd u t Ht Hu).
    pose proof (good_partial (set_coord F j l u) j l (Hgt u Hbd) ltac:(rewrite Hlen; auto) Hl) as D.
    rewrite Hco, Hc in D by auto.
    replace 0 with (gradf F ref j l - gradf F ref j l * 1) by ring.
    apply @is_derive_minus.
    - apply (is_derive_ext (fun t => HVof (set_coord (set_coord F j l u) j l t) ref)); [|exact D].
      intros v. cbv beta. rewrite set_coord_twice; auto.
    - apply (is_derive_scal (fun x => x) u). apply @is_derive_id. }
  lra.
Qed.

Lemma hessf_sym F i k j l : good F -> (i < length F)%nat -> (k < length ref)%nat -> (j < length F)%nat -> (l < length ref)%nat ->
  hessf F ref d i k j l = hessf F ref d j l i k.
Proof using All.
  intros Hg Hi Hk Hj Hl. destruct (Nat.eq_dec k l) as [->|Hkl].
  { unfold hessf. rewrite !Nat.eqb_refl. reflexivity. }
  assert (Hg0 := Hg). destruct Hg0 as (Hr & HG & Hin).
  destruct (safe_gap F ref d Hd HG Hin j l Hj Hl) as (e1 & He1 & S1).
  destruct (safe_gap F ref d Hd HG Hin i k Hi Hk) as (e2 & He2 & S2).
  destruct (hess_affine F ref d Hr Hd HG Hin j l i k Hj Hl Hi Hk) as (e3 & He3 & A3).
  destruct (hess_affine F ref d Hr Hd HG Hin i k j l Hi Hk Hj Hl) as (e4 & He4 & A4).
  set (e := Rmin (Rmin e1 e2) (Rmin e3 e4)).
  assert (He : 0 < e) by (unfold e; repeat apply Rmin_glb_lt; auto).
  assert (Hle : e <= e1 /\ e <= e2 /\ e <= e3 /\ e <= e4).
  { unfold e. pose proof (Rmin_l (Rmin e1 e2) (Rmin e3 e4)). pose proof (Rmin_r (Rmin e1 e2) (Rmin e3 e4)).
    pose proof (Rmin_l e1 e2). pose proof (Rmin_r e1 e2). pose proof (Rmin_l e3 e4). pose proof (Rmin_r e3 e4). lra. }
  clearbody e. destruct Hle as (L1 & L2 & L3 & L4).
  set (s := coord F i k + e). set (t := coord F j l + e).
  assert (Hlen : forall j l t, length (set_coord F j l t) = length F) by (intros; apply set_at_length).
  assert (Hsafe : forall i k s j l e', k <> l -> (i < length F)%nat -> (k < length ref)%nat ->
     (j < length F)%nat -> (l < length ref)%nat -> 
     (forall t, coord F j l - e' <= t <= coord F j l + e' -> safe F ref j l t) ->
     coord (set_coord F i k s) j l = coord F j l /\
     forall t, coord F j l - e' <= t <= coord F j l + e' -> safe (set_coord F i k s) ref j l t).
  { clear - Hr. intros i k s j l e' Hkl Hi Hk Hj Hl Hs.
    assert (Hc : forall a, coord (set_coord F i k s) a l = coord F a l).
    { intros a. rewrite (coord_set F ref) by auto. destruct (Nat.eqb_spec l k); [congruence|]. rewrite andb_false_r. reflexivity. }
    split; auto. intros t Ht. destruct (Hs t Ht) as [H1 H2]. split; auto.
    intros a Ha Hne. rewrite !Hc. apply H2; auto. unfold set_coord in Ha. rewrite set_at_length in Ha. exact Ha. }
  assert (Hsj : forall t, coord F j l - e <= t <= coord F j l + e -> safe F ref j l t) by (intros; apply S1; lra).
  assert (Hsi : forall s, coord F i k - e <= s <= coord F i k + e -> safe F ref i k s) by (intros; apply S2; lra).
  destruct (Hsafe i k s j l e Hkl Hi Hk Hj Hl Hsj) as [C1 B1].
  destruct (Hsafe j l t i k e ltac:(auto) Hj Hl Hi Hk Hsi) as [C2 B2].
  assert (Gs : good (set_coord F i k s)) by (apply good_set; auto; apply Hsi; unfold s; lra).
  assert (Gt : good (set_coord F j l t)) by (apply good_set; auto; apply Hsj; unfold t; lra).
  pose proof (good_affine F i k e Hg Hi Hk Hsi s ltac:(unfold s; lra)) as E1.
  pose proof (good_affine F j l e Hg Hj Hl Hsj t ltac:(unfold t; lra)) as E2.
  pose proof (good_affine (set_coord F i k s) j l e Gs ltac:(rewrite Hlen; auto) Hl) as E3.
  rewrite C1 in E3. specialize (E3 B1 t ltac:(unfold t; lra)).
  pose proof (good_affine (set_coord F j l t) i k e Gt ltac:(rewrite Hlen; auto) Hk) as E4.
  rewrite C2 in E4. specialize (E4 B2 s ltac:(unfold s; lra)).
  rewrite (set_coord_comm F i k s j l t) in E3 by auto.
  rewrite A3 in E3 by (unfold s; lra). rewrite A4 in E4 by (unfold t; lra).
  assert (Es : s - coord F i k = e) by (unfold s; ring). assert (Et : t - coord F j l = e) by (unfold t; ring).
  rewrite Es in *. rewrite Et in *. rewrite E3 in E4. rewrite E1, E2 in E4.
  assert (Hz : e * e * (hessf F ref d j l i k - hessf F ref d i k j l) = 0) by lra.
  assert (e * e <> 0) by nra. nra.
Qed.
End Sym.
