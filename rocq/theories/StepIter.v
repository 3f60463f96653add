(** HVN.iterate: every row is moved by the step of its own layer. *)
From Coq Require Import List Arith Bool Reals Lia Lra.
From Verif Require Import Num Exn ListAux StateModel NewtonModel RefModel StepModel StepSpec StepProof.
Import ListNotations.
Open Scope R_scope.

Lemma set_row_length' {A} k (x : A) l : length (set_row k x l) = length l.
Proof. revert k. induction l as [|a l IH]; intros [|k]; simpl; auto. Qed.
Lemma set_row_nth {A} k j (x d : A) l : (k < length l)%nat -> nth j (set_row k x l) d = if (j =? k)%nat then x else nth j l d.
Proof. revert k j. induction l as [|a l IH]; intros [|k] [|j] H; simpl in *; auto; try lia. apply IH. lia. Qed.

Lemma put_fold {A} (d : A) idx rows M : length idx = length rows -> NoDup idx -> (forall i, In i idx -> (i < length M)%nat) ->
  let M' := fold_left (fun M ir => set_row (fst ir) (snd ir) M) (combine idx rows) M in
  length M' = length M /\ (forall j, (j < length idx)%nat -> nth (nth j idx 0%nat) M' d = nth j rows d) /\
  (forall i, ~ In i idx -> nth i M' d = nth i M d).
Proof.
  revert rows M. induction idx as [|k idx IH]; intros [|r rows] M Hl Hn Hi; simpl in Hl; try lia; cbn [combine fold_left fst snd].
  - repeat split; auto. intros j Hj. simpl in Hj. lia.
  - apply NoDup_cons_iff in Hn as [Hk Hn]. destruct (IH rows (set_row k r M)) as (L & H1 & H2); auto.
    { intros i Hin. rewrite set_row_length'. apply Hi. simpl. auto. }
    cbv zeta in *. rewrite set_row_length' in L. split; auto. split.
    + intros [|j] Hj; simpl nth.
      * rewrite H2 by auto. rewrite set_row_nth by (apply Hi; simpl; auto). rewrite Nat.eqb_refl. auto.
      * apply H1. simpl in Hj. lia.
    + intros i Hin. rewrite H2 by (intros C; apply Hin; simpl; auto). rewrite set_row_nth by (apply Hi; simpl; auto).
      destruct (Nat.eqb_spec i k) as [->|]; auto. exfalso. apply Hin. simpl. auto.
Qed.
Lemma put_rows_spec {A} (d : A) M idx rows : length idx = length rows -> NoDup idx -> (forall i, In i idx -> (i < length M)%nat) ->
  exists M', put_rows M idx rows = Ok M' /\ length M' = length M /\ (forall j, (j < length idx)%nat -> nth (nth j idx 0%nat) M' d = nth j rows d) /\
  (forall i, ~ In i idx -> nth i M' d = nth i M d).
Proof.
  intros Hl Hn Hi. unfold put_rows. replace (length idx =? length rows)%nat with true by (symmetry; apply Nat.eqb_eq; auto).
  replace (forallb (fun i => (i <? length M)%nat) idx) with true by (symmetry; apply forallb_forall; intros i Hin; apply Nat.ltb_lt; auto).
  eexists. split; [reflexivity|]. apply put_fold; auto.
Qed.

Section Iter.
Variable layer_step : list nat -> res (list (list R) * list (list R)).
Variable layer_size : list nat -> list (list R) -> list (list R) -> res R.

(** what the layer contributes: step rows, rows of R, step size *)
Definition layer_result (idx : list nat) (s r : list (list R)) (a : R) : Prop :=
  layer_step idx = Ok (s, r) /\ layer_size idx s r = Ok a /\ length s = length idx /\ length r = length idx.

Lemma layers_loop_spec N ls st Rm size : length st = N -> length Rm = N -> length size = N ->
  (forall idx, In idx ls -> NoDup idx /\ (forall i, In i idx -> (i < N)%nat) /\ exists s r a, layer_result idx s r a) ->
  NoDup (concat ls) ->
  exists st' Rm' size', layers_loop layer_step layer_size ls st Rm size = Ok (st', Rm', size') /\
    length st' = N /\ length Rm' = N /\ length size' = N /\
    (forall idx s r a j, In idx ls -> layer_result idx s r a -> (j < length idx)%nat ->
       let i := nth j idx 0%nat in nth i st' [] = nth j s [] /\ nth i Rm' [] = nth j r [] /\ nth i size' 0 = a) /\
    (forall i, ~ In i (concat ls) -> nth i st' [] = nth i st [] /\ nth i Rm' [] = nth i Rm [] /\ nth i size' 0 = nth i size 0).
Proof.
  revert st Rm size. induction ls as [|idx ls IH]; intros st Rm size L1 L2 L3 Hl Hn.
  - exists st, Rm, size. simpl. repeat split; auto; contradiction.
  - destruct (Hl idx ltac:(simpl; auto)) as (Hnd & Hr & s & r & a & Hres). pose proof Hres as (E1 & E2 & E3 & E4).
    cbn [layers_loop]. rewrite E1. cbn [bind fst snd].
    destruct (put_rows_spec [] st idx s) as (st1 & P1 & Q1 & V1 & W1); auto; [intros; rewrite L1; auto|]. rewrite P1. cbn [bind].
    destruct (put_rows_spec [] Rm idx r) as (Rm1 & P2 & Q2 & V2 & W2); auto; [intros; rewrite L2; auto|]. rewrite P2. cbn [bind]. rewrite E2. cbn [bind].
    destruct (put_rows_spec 0 size idx (map (fun _ => a) idx)) as (sz1 & P3 & Q3 & V3 & W3); auto; [rewrite map_length; auto|intros; rewrite L3; auto|]. rewrite P3. cbn [bind].
    simpl in Hn. assert (Hn2 : NoDup (concat ls)).
    { clear -Hn. induction idx as [|x idx IH]; auto. simpl in Hn. apply NoDup_cons_iff in Hn as [_ Hn]. auto. }
    assert (Hdis : forall i, In i idx -> ~ In i (concat ls)).
    { clear -Hn. induction idx as [|x idx IH]; intros i Hi C; [contradiction|]. simpl in Hn. apply NoDup_cons_iff in Hn as [Hx Hn]. destruct Hi as [->|Hi].
      - apply Hx. apply in_app_iff. auto. - apply (IH Hn i); auto. }
    destruct (IH st1 Rm1 sz1) as (st' & Rm' & size' & E & M1 & M2 & M3 & HA & HB); auto; try congruence.
    { intros idx' H'. apply Hl. simpl. auto. }
    exists st', Rm', size'. split; auto. split; auto. split; auto. split; auto. split.
    + intros idx' s' r' a' j [<-|Hin] Hres' Hj; [|apply HA; auto]. cbv zeta. destruct Hres' as (F1 & F2 & F3 & F4).
      assert (s' = s) by congruence. assert (r' = r) by congruence. subst s' r'. assert (a' = a) by congruence. subst a'.
      assert (Hni : ~ In (nth j idx 0%nat) (concat ls)) by (apply Hdis, nth_In; auto). destruct (HB _ Hni) as (-> & -> & ->).
      rewrite V1, V2, V3 by auto. repeat split; auto. rewrite (nth_map_default _ _ _ 0%nat) by auto. reflexivity.
    + intros i Hi. simpl in Hi. rewrite in_app_iff in Hi. destruct (HB i ltac:(tauto)) as (-> & -> & ->). rewrite W1, W2, W3 by tauto. auto.
Qed.

Lemma hvn_update_spec dim ls X : (forall x, In x X -> length x = dim) ->
  (forall idx, In idx ls -> NoDup idx /\ (forall i, In i idx -> (i < length X)%nat) /\
     exists s r a, layer_result idx s r a /\ forall row, In row s -> length row = dim) ->
  NoDup (concat ls) -> (forall i, (i < length X)%nat -> In i (concat ls)) ->
  exists X' Rm, hvn_update layer_step layer_size dim ls X = Ok (X', Rm) /\ length X' = length X /\ length Rm = length X /\
    forall idx s r a j, In idx ls -> layer_result idx s r a -> (j < length idx)%nat ->
      let i := nth j idx 0%nat in nth i Rm [] = nth j r [] /\ length (nth i X' []) = dim /\
      forall c, (c < dim)%nat -> ent X' i c = ent X i c + a * ent s j c.
Proof.
  intros HX Hl Hn Hc. unfold hvn_update.
  destruct (layers_loop_spec (length X) ls (map (fun _ => repeat 0 dim) X) (map (fun _ => repeat 0 dim) X) (map (fun _ => 1) X)) as (st & Rm & size & E & L1 & L2 & L3 & HA & _);
    try apply map_length; auto.
  { intros idx Hin. destruct (Hl idx Hin) as (H1 & H2 & s & r & a & H3 & _). eauto 8. }
  rewrite E. cbn [bind]. do 2 eexists. split; [reflexivity|]. split; [rewrite zip_with_length, combine_length; lia|]. split; auto.
  intros idx s r a j Hin Hres Hj. cbv zeta. destruct (HA idx s r a j Hin Hres Hj) as (H1 & H2 & H3). cbv zeta in H1, H2, H3.
  destruct (Hl idx Hin) as (_ & Hr & s' & r' & a' & Hres' & Hw).
  assert (s' = s) by (destruct Hres as [A1 _], Hres' as [A2 _]; congruence). subst s'.
  set (i := nth j idx 0%nat) in *. assert (Hi : (i < length X)%nat) by (apply Hr, nth_In; auto).
  assert (Es : nth i (zip_with (fun x sa => zip_with (fun u v => u + v * snd sa) x (fst sa)) X (combine st size)) [] =
               zip_with (fun u v => u + v * a) (nth i X []) (nth j s [])).
  { rewrite (zip_with_nth _ _ _ _ [] ([], 0)) by (rewrite ?combine_length; lia). rewrite combine_nth by lia. cbn [fst snd]. rewrite H1, H3. reflexivity. }
  assert (Lx : length (nth i X []) = dim) by (apply HX, nth_In; auto).
  assert (Lsj : length (nth j s []) = dim) by (apply Hw, nth_In; destruct Hres as (_ & _ & -> & _); auto).
  split; auto. split; [rewrite Es, zip_with_length; lia|]. intros c Hcl. unfold ent at 1. rewrite Es. rewrite (zip_with_nth _ _ _ _ 0 0) by lia. unfold ent. ring.
Qed.
End Iter.
