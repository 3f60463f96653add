(** From the recursive sweep to [hypervolume]: pre-processing, filtering, shifting. *)
From Coq Require Import List Arith Reals Bool Lra Lia Permutation Sorted FunctionalExtensionality.
From Coquelicot Require Import Coquelicot.
From Verif Require Import Num Exn ListAux NDSSpec HVSpec HVModel HVTheory HVLinks HVProof.
Import ListNotations.
Open Scope nat_scope.

(** * Building the lists *)
Lemma Rep_append N P s l x : Rep N P s l -> x <> s -> ~ In x l ->
  Rep (upd1 (upd1 N x s) (P s) x) (upd1 (upd1 P x (P s)) s x) s (l ++ [x]).
Proof.
  intros HR Hxs Hxl. pose proof (Rep_pv0 _ _ _ _ HR) as Hlast. destruct HR as [Hnd Hadj].
  destruct (snoc_cases s l) as (u & a & Ea).
  assert (Ha : P s = a).
  { rewrite Hlast. destruct l as [|y l]; [destruct u as [|? [|]]; inversion Ea; auto|].
    change (last (s :: y :: l) s = a). rewrite Ea. apply last_last. }
  rewrite Ha.
  assert (Hina : In a (s :: l)) by (rewrite Ea; apply in_or_app; simpl; auto).
  assert (Hax : a <> x) by (intros ->; destruct Hina; auto).
  inversion Hnd as [|? ? Hs Hl]; subst x0 l0.
  split.
  - constructor.
    + rewrite in_app_iff. simpl. intros [|[|[]]]; auto.
    + apply NoDup_app_iff. repeat split; auto; [repeat constructor; auto|]. intros y Hy [<-|[]]; auto.
  - intros c e Hce.
    assert (Efull : s :: (l ++ [x]) ++ [s] = u ++ a :: x :: [s]).
    { rewrite <- app_assoc. simpl. change (s :: l ++ [x; s]) with ((s :: l) ++ [x; s]). rewrite Ea, <- app_assoc. reflexivity. }
    rewrite Efull in Hce. unfold upd1. apply adj_cases in Hce as [Hce|[[-> ->]|Hce]].
    + assert (Hcu : In c u) by (eapply adj_in_l; eauto).
      assert (Hca : c <> a).
      { intros ->. rewrite Ea in Hnd. apply NoDup_remove_2 in Hnd. rewrite app_nil_r in Hnd. auto. }
      assert (Hcx : c <> x).
      { intros ->. assert (In x (s :: l)) by (rewrite Ea; apply in_or_app; auto). destruct H; auto. }
      assert (He : In e l) by (rewrite <- Ea in Hce; eapply adj_in_r; eauto).
      assert (Hes : e <> s) by (intros ->; auto). assert (Hex : e <> x) by (intros ->; auto).
      apply Nat.eqb_neq in Hca, Hcx, Hes, Hex. rewrite Hca, Hcx, Hes, Hex. apply Hadj.
      change (s :: l ++ [s]) with ((s :: l) ++ [s]). rewrite Ea. apply adj_app_l. auto.
    + rewrite !Nat.eqb_refl. apply Nat.eqb_neq in Hxs. rewrite Hxs. auto.
    + destruct Hce as ([|? [|]] & l2 & E); simpl in E; inversion E; subst.
      * rewrite !Nat.eqb_refl. apply not_eq_sym in Hax. apply Nat.eqb_neq in Hax. rewrite Hax. auto.
      * destruct l0; discriminate.
Qed.

Section Build.
Context {T : Type} `{Num T}.
Variable pts : list (list T).
Notation n := (length pts).

Lemma extend_spec ns index : forall (m : @mem T) l, Rep (nx m index) (pv m index) n l ->
  NoDup (l ++ ns) -> (forall x, In x ns -> x < n) ->
  let m' := extend pts ns index m in
  Rep (nx m' index) (pv m' index) n (l ++ ns) /\
  (forall j, j <> index -> nx m' j = nx m j /\ pv m' j = pv m j) /\
  ig m' = ig m /\ ar m' = ar m /\ vo m' = vo m /\ bd m' = bd m.
Proof.
  induction ns as [|x ns IH]; intros m l HR Hnd Hn; cbn [extend fold_left].
  - rewrite app_nil_r. auto 10.
  - set (m1 := set_nx _ _ _ _).
    assert (Hx : x < n) by (apply Hn; simpl; auto).
    assert (Hxl : ~ In x l).
    { apply NoDup_remove_2 in Hnd. rewrite in_app_iff in Hnd. tauto. }
    assert (HR1 : Rep (nx m1 index) (pv m1 index) n (l ++ [x])).
    { pose proof (Rep_append _ _ _ _ x HR ltac:(lia) Hxl) as HA. revert HA. apply Rep_ext; intros y; simpl; unfold upd1, upd2.
      - rewrite Nat.eqb_refl. simpl. auto.
      - rewrite Nat.eqb_refl. simpl. auto. }
    assert (Hfr : forall j, j <> index -> nx m1 j = nx m j /\ pv m1 j = pv m j).
    { intros j Hj. apply Nat.eqb_neq in Hj. split; extensionality y; simpl; unfold upd2; rewrite Hj; auto. }
    destruct (IH m1 (l ++ [x]) HR1) as (I1 & I2 & I3 & I4 & I5 & I6).
    + rewrite <- app_assoc. auto.
    + intros y Hy. apply Hn. simpl; auto.
    + rewrite <- app_assoc in I1. simpl in I1. split; auto. split; [|split; [|split; [|split]]]; auto.
      intros j Hj. destruct (I2 j Hj) as [J1 J2], (Hfr j Hj) as [J3 J4]. unfold extend in J1, J2. rewrite J1, J2. auto.
Qed.
End Build.

Lemma StronglySorted_impl {A} (P Q : A -> A -> Prop) l :
  (forall x y, In x l -> In y l -> P x y -> Q x y) -> StronglySorted P l -> StronglySorted Q l.
Proof.
  induction l as [|x l IH]; intros Hi Hs; [constructor|]. inversion Hs as [|? ? H1 H2]; subst. constructor.
  - apply IH; auto. intros; apply Hi; simpl; auto.
  - rewrite Forall_forall in *. intros y Hy. apply Hi; simpl; auto.
Qed.
Lemma StronglySorted_map {A B} (f : A -> B) (Q : B -> B -> Prop) l :
  StronglySorted (fun x y => Q (f x) (f y)) l -> StronglySorted Q (map f l).
Proof.
  induction 1 as [|x l Hs IH Hf]; simpl; constructor; auto. rewrite Forall_forall in *.
  intros y Hy. apply in_map_iff in Hy as (z & <- & Hz). auto.
Qed.
Lemma map_nth_seq {A} (d : A) (l : list A) : map (fun i => nth i l d) (seq 0 (length l)) = l.
Proof.
  apply (list_eq_nth d); [rewrite map_length, seq_length; auto|].
  intros i Hi. rewrite map_length, seq_length in Hi.
  rewrite (nth_map_default _ (seq 0 (length l)) i 0 d) by (rewrite seq_length; auto). rewrite seq_nth; auto.
Qed.

Section Sort.
Variable pts : list (list R).
Notation n := (length pts).
Variable argsort : list R -> list nat.
Hypothesis Hargsort : argsort_ok argsort.

Lemma sort_by_spec ns i : Permutation ns (seq 0 n) ->
  Permutation (sort_by_dimension pts argsort ns i) (seq 0 n) /\
  StronglySorted (fun a b => (c pts a i <= c pts b i)%R) (sort_by_dimension pts argsort ns i).
Proof.
  intros Hp. unfold sort_by_dimension. set (vals := map _ ns).
  destruct (Hargsort vals) as [Hperm Hs].
  assert (Hlv : length vals = length ns) by (unfold vals; apply map_length).
  split.
  - rewrite Hlv in Hperm. apply (Permutation_map (fun j => nth j ns 0)) in Hperm.
    rewrite map_nth_seq in Hperm. etransitivity; eauto.
  - apply StronglySorted_map. revert Hs. apply StronglySorted_impl. intros a b Ha Hb.
    apply (Permutation_in _ Hperm) in Ha, Hb. apply in_seq in Ha, Hb.
    unfold vals. rewrite !(nth_map_default (fun x => nth i (nth x pts []) nzero) ns _ 0 0%R) by lia.
    unfold c. numR. auto.
Qed.

Lemma pre_process_spec is : forall ns (m : @mem R), Permutation ns (seq 0 n) -> NoDup is ->
  (forall i, In i is -> Rep (nx m i) (pv m i) n []) ->
  exists M : nat -> list nat,
    let m' := pre_process pts argsort is ns m in
    (forall i, In i is -> Permutation (M i) (seq 0 n) /\
       StronglySorted (fun a b => (c pts a i <= c pts b i)%R) (M i) /\
       Rep (nx m' i) (pv m' i) n (M i)) /\
    (forall i, ~ In i is -> nx m' i = nx m i /\ pv m' i = pv m i) /\
    ig m' = ig m /\ ar m' = ar m /\ vo m' = vo m /\ bd m' = bd m /\
    (forall l1 i l2, is = l1 ++ i :: l2 -> M i = sort_by_dimension pts argsort (last (map M l1) ns) i).
Proof.
  induction is as [|i is IH]; intros ns m Hp Hnd HR; cbn [pre_process].
  - exists (fun _ => []). cbv zeta. split; [intros i []|]. split; [auto|]. repeat (split; auto).
    intros [|? ?] ? ? E; discriminate.
  - destruct (sort_by_spec ns i Hp) as [Hp' Hs']. set (ns' := sort_by_dimension pts argsort ns i) in *.
    destruct (extend_spec pts ns' i m [] (HR i (or_introl eq_refl))) as (E1 & E2 & E3 & E4 & E5 & E6).
    { simpl. apply (Permutation_NoDup (Permutation_sym Hp')), seq_NoDup. }
    { intros x Hx. apply (Permutation_in _ Hp') in Hx. apply in_seq in Hx. lia. }
    set (m1 := extend pts ns' i m) in *. inversion Hnd as [|? ? Hi Hnd']; subst.
    destruct (IH ns' m1 Hp' Hnd') as (M & F1 & F2 & F3 & F4 & F5 & F6 & F7).
    { intros j Hj. assert (j <> i) by congruence. destruct (E2 j H) as [-> ->]. apply HR; simpl; auto. }
    exists (fun j => if Nat.eqb j i then ns' else M j). cbv zeta. split; [|split; [|rewrite F3, F4, F5, F6; repeat (split; auto)]].
    + intros j Hj. destruct (Nat.eqb_spec j i) as [->|Hne].
      * split; auto. split; auto. destruct (F2 i Hi) as [-> ->]. exact E1.
      * destruct Hj as [->|Hj]; [congruence|]. apply F1; auto.
    + intros j Hj. simpl in Hj. destruct (F2 j) as [-> ->]; [tauto|]. apply E2. intros ->; tauto.
    + intros [|i0 l1] j l2 E; simpl in E; inversion E; subst; cbn [map last].
      * rewrite Nat.eqb_refl. reflexivity.
      * assert (Hji : j <> i0) by (intros ->; apply Hi; rewrite in_app_iff; simpl; auto).
        apply Nat.eqb_neq in Hji. rewrite Hji, (F7 l1 j l2 eq_refl). f_equal. rewrite Nat.eqb_refl.
        assert (Em : map (fun j => if Nat.eqb j i0 then ns' else M j) l1 = map M l1).
        { apply map_ext_in. intros k Hk. destruct (Nat.eqb_spec k i0) as [->|]; auto. exfalso. apply Hi. rewrite in_app_iff; auto. }
        rewrite Em. destruct (map M l1) as [|a l]; auto. clear. change (last (a :: l) ns' = last (a :: l) ns).
        revert a. induction l as [|b l IH]; intros a; [reflexivity|]. exact (IH b).
Qed.
End Sort.

(** position in a list *)
Fixpoint idx (l : list nat) (x : nat) : nat :=
  match l with [] => 0 | y :: l' => if Nat.eqb x y then 0 else S (idx l' x) end.
Lemma idx_sorted l : NoDup l -> StronglySorted (fun a b => idx l a < idx l b) l.
Proof.
  induction 1 as [|x l Hx Hnd IH]; [constructor|]. constructor.
  - revert IH. apply StronglySorted_impl. intros a b Ha Hb Hlt. simpl.
    destruct (Nat.eqb_spec a x); [congruence|]. destruct (Nat.eqb_spec b x); [congruence|]. lia.
  - apply Forall_forall. intros b Hb. simpl. rewrite Nat.eqb_refl.
    destruct (Nat.eqb_spec b x); [congruence|]. lia.
Qed.
Lemma idx_order (Q : nat -> nat -> Prop) l a b : NoDup l -> StronglySorted Q l -> In a l -> In b l ->
  idx l a < idx l b -> Q a b.
Proof.
  induction l as [|x l IH]; simpl; [tauto|]. intros Hnd Hs Ha Hb. inversion Hnd; inversion Hs as [|? ? H5 H6]; subst.
  destruct (Nat.eqb_spec a x) as [->|Hax], (Nat.eqb_spec b x) as [->|Hbx]; intros Hlt; try lia.
  - rewrite Forall_forall in H6. apply H6. destruct Hb; [congruence|auto].
  - apply IH; auto; [destruct Ha; congruence|destruct Hb; congruence|lia].
Qed.

Lemma idx_nth l j : NoDup l -> j < length l -> idx l (nth j l 0) = j.
Proof.
  revert j. induction l as [|x l IH]; intros j Hnd Hj; simpl in *; [lia|]. inversion Hnd; subst.
  destruct j as [|j]; [rewrite Nat.eqb_refl; auto|].
  destruct (Nat.eqb_spec (nth j l 0) x) as [E|_]; [exfalso; apply H1; rewrite <- E; apply nth_In; lia|].
  rewrite IH; auto. lia.
Qed.
Lemma idx_In l x : In x l -> idx l x < length l /\ nth (idx l x) l 0 = x.
Proof.
  induction l as [|y l IH]; simpl; [tauto|]. intros Hx. destruct (Nat.eqb_spec x y) as [->|]; [split; [lia|auto]|].
  destruct IH as [H1 H2]; [destruct Hx; [congruence|auto]|]. split; [lia|auto].
Qed.
Lemma idx_seq n x : x < n -> idx (seq 0 n) x = x.
Proof.
  intros Hx. pose proof (idx_nth (seq 0 n) x (seq_NoDup n 0)) as E. rewrite seq_length, seq_nth in E by auto.
  apply E. auto.
Qed.
(** a stable sort keeps the order of nodes with equal values *)
Lemma sort_stable (pts : list (list R)) argsort ns i a b : argsort_stable argsort ->
  Permutation ns (seq 0 (length pts)) -> In a ns -> In b ns -> c pts a i = c pts b i ->
  idx ns a < idx ns b ->
  idx (sort_by_dimension pts argsort ns i) a < idx (sort_by_dimension pts argsort ns i) b.
Proof.
  intros [Hok Hst] Hp Ha Hb Hab Hlt.
  destruct (sort_by_spec pts argsort Hok ns i Hp) as [Hp' _].
  assert (Hnd : NoDup ns) by (apply (Permutation_NoDup (Permutation_sym Hp)), seq_NoDup).
  set (l := sort_by_dimension pts argsort ns i) in *.
  assert (Hnd' : NoDup l) by (apply (Permutation_NoDup (Permutation_sym Hp')), seq_NoDup).
  assert (Hin : forall x, In x ns -> In x l).
  { intros x Hx. apply (Permutation_in _ (Permutation_sym Hp')), (Permutation_in _ Hp), Hx. }
  assert (Hs : StronglySorted (fun x y => c pts x i = c pts y i -> idx ns x < idx ns y) l).
  { unfold l, sort_by_dimension. set (vals := map _ ns). destruct (Hok vals) as [Hperm _].
    assert (Hlv : length vals = length ns) by (unfold vals; apply map_length).
    apply StronglySorted_map. generalize (Hst vals). apply StronglySorted_impl. intros x y Hx Hy.
    apply (Permutation_in _ Hperm) in Hx, Hy. apply in_seq in Hx, Hy.
    rewrite !idx_nth by (auto; lia). unfold vals.
    rewrite !(nth_map_default (fun x => nth i (nth x pts []) nzero) ns _ 0 0%R) by lia. unfold c. numR. auto. }
  destruct (lt_eq_lt_dec (idx l a) (idx l b)) as [[H|H]|H]; auto; exfalso.
  - destruct (idx_In l a (Hin a Ha)) as [_ E1], (idx_In l b (Hin b Hb)) as [_ E2].
    rewrite H in E1. assert (Eab : a = b) by congruence. rewrite Eab in Hlt. lia.
  - pose proof (idx_order _ l b a Hnd' Hs (Hin b Hb) (Hin a Ha) H (eq_sym Hab)). lia.
Qed.

(** * The sweep started on the full set *)
Open Scope R_scope.
Lemma sweep_correct (pts : list (list R)) D argsort minf :
  argsort_ok argsort ->
  (forall x, (x < length pts)%nat -> length (nth x pts []) = S D) ->
  (forall x k, (x < length pts)%nat -> (k <= D)%nat -> minf <= c pts x k <= 0) ->
  ((D <= 2)%nat \/
   ((forall x k, (x < length pts)%nat -> (k < D)%nat -> c pts x k < 0) /\
    (forall d x y, (d <= D)%nat -> (x < length pts)%nat -> (y < length pts)%nat -> y <> x ->
       (forall k, (k <= d)%nat -> c pts y k <= c pts x k) ->
       forall k, (2 <= k)%nat -> (k < d)%nat -> c pts y k <> c pts x k)) \/
   ((forall x k, (x < length pts)%nat -> (k < D)%nat -> c pts x k < 0) /\ argsort_stable argsort /\
    (forall d x y, (3 <= d)%nat -> (d <= D)%nat -> (x < y)%nat -> (y < length pts)%nat ->
       (forall k, (k <= d)%nat -> c pts y k <= c pts x k) -> (exists k, (k <= d)%nat /\ c pts y k < c pts x k) ->
       (d = D -> exists z, (z < length pts)%nat /\ z <> x /\ z <> y /\ c pts x d <= c pts z d) ->
       exists l, (l <= 2)%nat /\ c pts y l < c pts x l))) ->
  exists m', hv_recursive pts (S (length pts)) D (length pts)
      (pre_process pts argsort (seq 0 (S D)) (seq 0 (length pts)) (init_mem pts minf))
    = Ok (hv (S D) (fun _ => 0) (map co pts), m').
Proof.
  intros Has Hlen Hc Hgp. set (n := length pts) in *.
  destruct (pre_process_spec pts argsort Has (seq 0 (S D)) (seq 0 n) (init_mem pts minf)) as
    (M & F1 & F2 & F3 & F4 & F5 & F6 & F7); auto.
  { apply seq_NoDup. }
  { intros i _. split; [repeat constructor; simpl; auto|]. simpl.
    intros a b ([|? [|]] & l2 & E); simpl in E; inversion E; subst; auto. destruct l; discriminate. }
  set (m := pre_process _ _ _ _ _) in *.
  assert (HM : forall k, (k <= D)%nat -> Permutation (M k) (seq 0 n)) by (intros k Hk; apply F1, in_seq; lia).
  assert (HMnd : forall k, (k <= D)%nat -> NoDup (M k))
    by (intros k Hk; apply (Permutation_NoDup (Permutation_sym (HM k Hk))), seq_NoDup).
  assert (Hall : map co pts = map (c pts) (seq 0 n)).
  { rewrite <- (map_nth_seq [] pts) at 1. rewrite map_map. reflexivity. }
  destruct (Nat.eq_dec n 0) as [Hn0|Hn0].
  - exists m. rewrite Hn0. assert (pts = []) as E by (destruct pts; [auto|discriminate]).
    rewrite E. destruct D; reflexivity.
  - set (pos := fun k => idx (M k)).
    assert (Hneg : forall x k, (x < n)%nat -> (k <= D)%nat -> c pts x k <= 0) by (intros; apply Hc; auto).
    assert (Hpos : forall k, (k <= D)%nat -> StronglySorted (fun a b => (pos k a < pos k b)%nat) (M k))
      by (intros k Hk; apply idx_sorted; auto).
    assert (Hin : forall k x, (k <= D)%nat -> (x < n)%nat -> In x (M k)).
    { intros k x Hk Hx. apply (Permutation_in _ (Permutation_sym (HM k Hk))), in_seq. lia. }
    assert (Hcoord : forall k a b, (k <= D)%nat -> (a < n)%nat -> (b < n)%nat -> (pos k a < pos k b)%nat -> c pts a k <= c pts b k).
    { intros k a b Hk Ha Hb Hlt. destruct (F1 k) as (_ & Hs & _); [apply in_seq; lia|].
      exact (idx_order _ (M k) a b (HMnd k Hk) Hs (Hin k a Hk Ha) (Hin k b Hk Hb) Hlt). }
    assert (Hnodes : nodes pts (seq 0 n)) by (intros x Hx; apply in_seq in Hx; lia).
    assert (Hsub : forall k, (k <= D)%nat -> sub M (seq 0 n) k = M k).
    { intros k Hk. unfold sub. rewrite <- (app_nil_r (M k)) at 2.
      assert (G : forall l, (forall x, In x l -> In x (seq 0 n)) -> filter (inb (seq 0 n)) l = l).
      { clear. induction l as [|x l IH]; intros Hl; simpl; auto. rewrite (proj2 (inb_spec _ x)) by (apply Hl; simpl; auto).
        f_equal. apply IH. intros; apply Hl; simpl; auto. }
      rewrite app_nil_r. apply G. intros x. apply Permutation_in. auto. }
    destruct D as [|D'].
    + (* one dimension *)
      exists m. cbn [hv_recursive]. destruct (Nat.eqb_spec n 0); [lia|].
      destruct (F1 0%nat) as (Hp0 & Hs0 & HR0); [apply in_seq; lia|].
      rewrite (Rep_nx0 _ _ _ _ HR0).
      destruct (M 0%nat) as [|q v] eqn:E; [apply Permutation_length in Hp0; rewrite seq_length in Hp0; simpl in Hp0; lia|].
      cbn [hd].
      assert (Hq : (q < n)%nat) by (assert (In q (seq 0 n)) by (apply (Permutation_in _ Hp0); simpl; auto); apply in_seq in H; lia).
      unfold n in Hq. rewrite (cg_c pts 0 Hlen q 0 Hq) by lia. cbn [bind]. do 2 f_equal. rewrite Hall.
      inversion Hs0 as [|? ? H5 H6]; subst. rewrite Forall_forall in H6.
      replace (hv 1 (fun _ => 0) (map (c pts) (seq 0 n))) with (hv 1 (fun _ => 0) [c pts q]).
      * simpl. unfold box. simpl. rewrite Rmax_right; [numR; ring|]. pose proof (Hneg q 0%nat Hq ltac:(lia)). lra.
      * apply Rle_antisym.
        -- apply hv_incl. intros p [<-|[]]. apply in_map, in_seq. unfold n. lia.
        -- apply hv_mono. intros p Hp. apply in_map_iff in Hp as (y & <- & Hy). exists (c pts q). split; [simpl; auto|].
           intros k Hk. assert (k = 0)%nat as -> by lia.
           apply (Permutation_in _ (Permutation_sym Hp0)) in Hy. destruct Hy as [->|Hy]; [lra|auto].
    + set (GP := (3 <= S D')%nat).
      assert (Hcp : forall k a b, (k <= S D')%nat -> (a < n)%nat -> (b < n)%nat -> c pts a k < c pts b k -> (pos k a < pos k b)%nat).
      { intros k a b Hk Ha Hb Hlt. destruct (lt_eq_lt_dec (pos k a) (pos k b)) as [[H|H]|H]; auto; exfalso.
        - destruct (idx_In (M k) a (Hin k a Hk Ha)) as [_ E1], (idx_In (M k) b (Hin k b Hk Hb)) as [_ E2].
          unfold pos in H. rewrite H in E1. assert (Eab : a = b) by congruence. rewrite Eab in Hlt. lra.
        - specialize (Hcoord k b a Hk Hb Ha H). lra. }
      assert (Hgp' : GP -> ((forall x k, (x < n)%nat -> (k < S D')%nat -> c pts x k < 0) /\
        (forall d x y, (d <= S D')%nat -> (x < n)%nat -> (y < n)%nat -> y <> x ->
           (forall k, (k <= d)%nat -> c pts y k <= c pts x k) -> (pos d y < pos d x)%nat ->
           (d = S D' -> exists z, (z < n)%nat /\ (pos (S D') x < pos (S D') z)%nat) ->
           forall k, (2 <= k)%nat -> (k < d)%nat -> (pos k y < pos k x)%nat))).
      { unfold GP. intros H3. destruct Hgp as [|[[G1 G2]|(G1 & G2 & G3)]]; [lia| |]; (split; [exact G1|]).
        - intros d x y Hd Hx Hy Hne Hle _ _ k Hk1 Hk2. apply Hcp; auto; [lia|].
          specialize (G2 d x y Hd Hx Hy Hne Hle k Hk1 Hk2). specialize (Hle k ltac:(lia)). lra.
        - intros d x y Hd Hx Hy Hne Hle Hpd Hz k Hk1 Hk2.
          assert (Hlex : forall a b k, (a < n)%nat -> (b < n)%nat -> (k <= S D')%nat ->
            (forall j, (j <= k)%nat -> c pts a j <= c pts b j) ->
            ((exists l, (l <= k)%nat /\ c pts a l < c pts b l) \/ (a < b)%nat) -> (pos k a < pos k b)%nat).
          { clear - F7 HM Hin Hcp G2. intros a b k Ha Hb. induction k as [|k IHk]; intros Hk Hle Hor.
            - destruct (Rle_lt_or_eq_dec _ _ (Hle 0%nat ltac:(lia))) as [H0|H0]; [apply Hcp; auto; lia|].
              unfold pos. rewrite (F7 [] 0%nat (seq 1 (S D')) eq_refl). simpl last.
              apply sort_stable; auto; try (apply in_seq; lia). rewrite !idx_seq by auto.
              destruct Hor as [(l & Hl & Hlt)|]; auto. assert (l = 0)%nat as -> by lia. lra.
            - destruct (Rle_lt_or_eq_dec _ _ (Hle (S k) ltac:(lia))) as [H0|H0]; [apply Hcp; auto; lia|].
              assert (EM : M (S k) = sort_by_dimension pts argsort (M k) (S k)).
              { rewrite (F7 (seq 0 (S k)) (S k) (seq (S (S k)) (D' - k))).
                - rewrite seq_S, map_app. cbn [map]. rewrite last_last. reflexivity.
                - change (S k :: seq (S (S k)) (D' - k)) with (seq (0 + S k) (S (D' - k))). rewrite <- seq_app. f_equal. lia. }
              unfold pos. rewrite EM. apply sort_stable; auto; try (apply HM; lia); try (apply Hin; auto; lia).
              apply IHk; [lia|intros j Hj; apply Hle; lia|]. destruct Hor as [(l & Hl & Hlt)|]; auto.
              left. exists l. split; auto. destruct (Nat.eq_dec l (S k)) as [->|]; [lra|lia]. }
          apply Hlex; auto; [lia|intros j Hj; apply Hle; lia|].
          destruct (le_lt_dec y x) as [H|H]; [right; lia|left].
          destruct (G3 d x y) as (l & Hl & Hlt); auto; [lia| | |exists l; split; auto; lia].
          { destruct (not_all_ex (S d) (c pts x) (c pts y)) as [Heq|(l & Hl & Hlt)]; [exfalso|exists l; split; [lia|auto]].
            assert (pos d x < pos d y)%nat; [|lia]. apply Hlex; auto. intros j Hj. apply Heq. lia. }
          intros ->. destruct (Hz eq_refl) as (z & Hzn & Hzp). exists z. split; auto.
          split; [intros ->; lia|]. split; [intros ->; lia|]. apply Hcoord; auto. }
      destruct (hv_rec_spec pts (S D') Hlen Hneg M pos HM Hpos Hcoord GP (fun g => proj1 (Hgp' g)) (fun g => proj2 (Hgp' g))
         ltac:(auto) (S n) (S D') ltac:(lia) ltac:(lia) ltac:(unfold n; lia) (seq 0 n) m) as (m' & Hr & _).
      * unfold Pre. split; [exact Hnodes|]. split; [apply seq_NoDup|]. split; [destruct n; [lia|discriminate]|].
        split; [|split; [|split]].
        -- intros i Hi. rewrite Hsub by auto. apply F1, in_seq. lia.
        -- intros _ i Hi1 Hi2 x Hx Hb. rewrite F6 in Hb. simpl in Hb. apply in_seq in Hx.
           destruct (Hc x i ltac:(lia) Hi2). lra.
        -- intros _ x Hx Hf. rewrite F3 in Hf. simpl in Hf. lia.
        -- intros i. rewrite F4. reflexivity.
      * exists m'. rewrite seq_length in Hr. rewrite Hr. do 2 f_equal. rewrite Nat.add_1_r. unfold Hv. rewrite Hall. reflexivity.
Qed.

(** * Filtering and shifting *)
Lemma weakly_dom_spec (p r : list R) : length p = length r -> weakly_dom p r = true <-> weakly_dominates p r.
Proof.
  intros Hl. unfold weakly_dominates. revert r Hl; induction p as [|x p IH]; intros [|y r] Hl; try discriminate; simpl.
  - split; auto. intros _. split; auto. intros; lia.
  - destruct (nltb_spec y x) as [Hlt|Hge].
    + split; [discriminate|]. intros [_ Hk]. specialize (Hk 0%nat ltac:(lia)). simpl in Hk. lra.
    + simpl in Hl. rewrite IH by lia. split.
      * intros [Hl2 Hk]. split; [lia|]. intros [|k] Hlt; simpl; [lra|]. apply Hk. lia.
      * intros [Hl2 Hk]. split; [lia|]. intros k Hlt. apply (Hk (S k)). lia.
Qed.

Lemma hvs_shift d r r' (f : nat -> R) P c c' :
  (forall k, (k < d)%nat -> r' k = r k + f k) -> (forall k, (k < d)%nat -> c' k = c k + f k) ->
  hvs d r' (map (fun (p : pt) k => p k + f k) P) c' = hvs d r P c.
Proof.
  intros Hr. revert c c'; induction P as [|p P IH]; intros c c' Hc; simpl; auto.
  assert (Hj : forall k, (k < d)%nat -> pjoin (fun k => p k + f k) c' k = pjoin p c k + f k).
  { intros k Hk. unfold pjoin. rewrite Hc by auto. unfold Rmax.
    destruct (Rle_dec (p k + f k) (c k + f k)), (Rle_dec (p k) (c k)); lra. }
  rewrite (IH c c'), (IH (pjoin p c)) by auto. f_equal. f_equal.
  unfold box. apply prodn_ext. intros k Hk. rewrite Hj, Hr by auto. f_equal. ring.
Qed.
Lemma hv_shift d r r' (f : nat -> R) P :
  (forall k, (k < d)%nat -> r' k = r k + f k) ->
  hv d r' (map (fun (p : pt) k => p k + f k) P) = hv d r P.
Proof.
  intros Hr. induction P as [|p P IH]; simpl; auto.
  rewrite IH, (hvs_shift d r r' f P p) by auto. f_equal. f_equal.
  unfold box. apply prodn_ext. intros k Hk. rewrite Hr by auto. f_equal. ring.
Qed.

Lemma hv_ext_P d r P P' : Forall2 (fun p p' : pt => forall k, (k < d)%nat -> p k = p' k) P P' -> hv d r P = hv d r P'.
Proof.
  intros HF. apply Rle_antisym; apply hv_mono.
  - intros p Hp. induction HF as [|a b P P' Hab HF IH]; [destruct Hp|]. destruct Hp as [<-|Hp].
    + exists b. split; [simpl; auto|]. intros k Hk. rewrite Hab by auto. lra.
    + destruct (IH Hp) as (q & Hq & Hk). exists q; simpl; auto.
  - intros p Hp. induction HF as [|a b P P' Hab HF IH]; [destruct Hp|]. destruct Hp as [<-|Hp].
    + exists a. split; [simpl; auto|]. intros k Hk. rewrite Hab by auto. lra.
    + destruct (IH Hp) as (q & Hq & Hk). exists q; simpl; auto.
Qed.
(** congruence of [hv] for adding a point *)
Lemma hv_cons_congr d r p P Q : hv d r P = hv d r Q ->
  (forall c, hvs d r P c = hvs d r Q c) -> hv d r (p :: P) = hv d r (p :: Q).
Proof. intros E1 E2. cbn [hv]. rewrite E1, E2. reflexivity. Qed.
Lemma hvs_dead d r P q k c : (k < d)%nat -> r k <= q k -> hvs d r (q :: P) c = hvs d r P c.
Proof.
  intros Hk Hr. cbn [hvs].
  assert (Hb : forall c, r k <= c k -> box d r c = 0).
  { intros c' Hc. unfold box. clear -Hk Hc. induction d as [|d IH]; [lia|]. simpl.
    destruct (Nat.eq_dec k d) as [->|Hne]; [rewrite Rmax_left by lra; ring|]. rewrite IH by lia. ring. }
  assert (Hs : forall P c, r k <= c k -> hvs d r P c = 0).
  { clear P c. induction P as [|p P IH]; intros c' Hc; simpl; auto.
    assert (Hj : r k <= pjoin p c' k) by (unfold pjoin; eapply Rle_trans; [exact Hc|apply Rmax_r]).
    rewrite Hb, !IH; auto. ring. }
  assert (Hj : r k <= pjoin q c k) by (unfold pjoin; eapply Rle_trans; [exact Hr|apply Rmax_l]).
  rewrite (Hb _ Hj), (Hs P _ Hj). ring.
Qed.
Lemma hvs_filter d r (f : list R -> bool) P c :
  (forall p, In p P -> f p = false -> exists k, (k < d)%nat /\ r k <= nth k p 0) ->
  hvs d r (map co (filter f P)) c = hvs d r (map co P) c.
Proof.
  revert c; induction P as [|p P IH]; intros c Hf; cbn [filter map]; auto.
  assert (Hf' : forall p, In p P -> f p = false -> exists k, (k < d)%nat /\ r k <= nth k p 0)
    by (intros; apply Hf; simpl; auto).
  destruct (f p) eqn:E.
  - cbn [map hvs]. rewrite !IH; auto.
  - destruct (Hf p (or_introl eq_refl) E) as (k & Hk & Hr). rewrite (hvs_dead d r (map co P) (co p) k) by auto. auto.
Qed.
Lemma hv_filter d r (f : list R -> bool) P :
  (forall p, In p P -> f p = false -> exists k, (k < d)%nat /\ r k <= nth k p 0) ->
  hv d r (map co (filter f P)) = hv d r (map co P).
Proof.
  induction P as [|p P IH]; intros Hf; cbn [filter map]; auto.
  assert (Hf' : forall p, In p P -> f p = false -> exists k, (k < d)%nat /\ r k <= nth k p 0)
    by (intros; apply Hf; simpl; auto).
  destruct (f p) eqn:E.
  - cbn [map]. apply hv_cons_congr; auto. intros c. apply hvs_filter; auto.
  - destruct (Hf p (or_introl eq_refl) E) as (k & Hk & Hr). transitivity (hv d r (map co P)); [auto|].
    symmetry. apply (hv_dead d r (map co P) (co p) k); auto.
Qed.

Lemma vsub_length (a b : list R) : length a = length b -> length (vsub a b) = length a.
Proof. revert b; induction a as [|x a IH]; intros [|y b] E; simpl in *; try discriminate; auto. Qed.
Lemma vsub_nth (a b : list R) k : length a = length b -> nth k (vsub a b) 0 = nth k a 0 - nth k b 0.
Proof.
  revert b k; induction a as [|x a IH]; intros [|y b] [|k] E; simpl in *; try discriminate; try lra; auto.
Qed.
Lemma any_nonzero_false (l : list R) : any_nonzero l = false -> forall k, nth k l 0 = 0.
Proof.
  unfold any_nonzero. induction l as [|x l IH]; simpl; intros E [|k]; auto.
  - apply orb_false_iff in E as [E _]. apply negb_false_iff, neqb_true in E. auto.
  - apply orb_false_iff in E as [_ E]. apply IH. auto.
Qed.

(** the relevant points, as shifted coordinates *)
Lemma relevant_spec (front : list (list R)) ref :
  (forall p, In p front -> length p = length ref) ->
  let rel := filter (fun p => weakly_dom p ref) front in
  length (relevant_points front ref) = length rel /\
  forall x, (x < length rel)%nat ->
    length (nth x (relevant_points front ref) []) = length ref /\
    forall k, nth k (nth x (relevant_points front ref) []) 0 = nth k (nth x rel []) 0 - nth k ref 0.
Proof.
  intros Hl rel. unfold relevant_points. fold rel.
  assert (Hlr : forall x, (x < length rel)%nat -> length (nth x rel []) = length ref).
  { intros x Hx. apply Hl. pose proof (nth_In rel [] Hx) as Hin. apply filter_In in Hin. tauto. }
  destruct (any_nonzero ref) eqn:E.
  - rewrite map_length. split; auto. intros x Hx.
    rewrite (nth_map_default (fun p => vsub p ref) rel x [] []) by auto. specialize (Hlr x Hx).
    split; [rewrite vsub_length; auto|]. intros k. apply vsub_nth; auto.
  - split; auto. intros x Hx. split; auto. intros k. rewrite (any_nonzero_false ref E k). lra.
Qed.

Lemma filter_index {A} (f : A -> bool) (l : list A) (d : A) :
  exists g : nat -> nat, (forall x, (x < length (filter f l))%nat ->
     (g x < length l)%nat /\ nth (g x) l d = nth x (filter f l) d /\ f (nth x (filter f l) d) = true) /\
   (forall x y, (x < y)%nat -> (y < length (filter f l))%nat -> (g x < g y)%nat).
Proof.
  induction l as [|a l (g & G1 & G2)]; [exists (fun x => x); split; simpl; intros; lia|].
  simpl. destruct (f a) eqn:E.
  - exists (fun x => match x with O => O | S x' => S (g x') end). split.
    + intros [|x] Hx; simpl in *; [repeat split; auto; lia|]. destruct (G1 x ltac:(lia)) as (H1 & H2 & H3). repeat split; auto. lia.
    + intros [|x] [|y] Hx Hy; simpl in *; try lia. assert (g x < g y)%nat by (apply G2; lia). lia.
  - exists (fun x => S (g x)). split.
    + intros x Hx. destruct (G1 x Hx) as (H1 & H2 & H3). repeat split; auto. lia.
    + intros x y Hx Hy. assert (g x < g y)%nat by (apply G2; auto). lia.
Qed.

Lemma Forall2_map_nth (P : list (list R)) (Q : list (list R)) (R2 : pt -> pt -> Prop) :
  length P = length Q -> (forall x, (x < length P)%nat -> R2 (co (nth x P [])) (co (nth x Q []))) ->
  Forall2 R2 (map co P) (map co Q).
Proof.
  revert Q; induction P as [|p P IH]; intros [|q Q] Hl Hx; simpl in *; try discriminate; constructor.
  - apply (Hx 0%nat). lia.
  - apply IH; [lia|]. intros x Hlt. apply (Hx (S x)). lia.
Qed.

Theorem hypervolume_correct_gen (minf : R) argsort (front : list (list R)) (ref : list R) :
  argsort_ok argsort -> (1 <= length ref)%nat ->
  (forall p, In p front -> length p = length ref) ->
  (forall p k, In p front -> weakly_dominates p ref -> (k < length ref)%nat -> minf <= nth k p 0 - nth k ref 0) ->
  (length ref <= 3)%nat \/ harmless_ties front ref \/
    (argsort_stable argsort /\ harmless_ties_stable front ref) ->
  hypervolume minf argsort front ref = Ok (hv (length ref) (co ref) (map co front)).
Proof.
  intros Has Hd Hl Hmin Hgp. unfold hypervolume.
  destruct (relevant_spec front ref Hl) as [Hrl Hrn].
  set (pts := relevant_points front ref) in *. set (rel := filter (fun p => weakly_dom p ref) front) in *.
  destruct (length ref) as [|D] eqn:Eref; [lia|].
  destruct (filter_index (fun p => weakly_dom p ref) front []) as (g & G1 & G2). fold rel in G1, G2.
  assert (Hwd : forall x, (x < length rel)%nat -> weakly_dominates (nth x rel []) ref).
  { intros x Hx. destruct (G1 x Hx) as (H1 & H2 & H3). apply weakly_dom_spec; auto. rewrite <- H2, Eref. apply Hl, nth_In. auto. }
  assert (Hc : forall x k, (x < length rel)%nat -> c pts x k = nth k (nth x rel []) 0 - nth k ref 0).
  { intros x k Hx. unfold c. apply Hrn. auto. }
  assert (Hrin : forall x, (x < length rel)%nat -> In (nth x rel []) front).
  { intros x Hx. pose proof (nth_In rel [] Hx) as Hin. apply filter_In in Hin. tauto. }
  assert (Hlrel : forall x, (x < length rel)%nat -> length (nth x rel []) = S D) by (intros x Hx; apply Hl; auto).
  destruct (sweep_correct pts D argsort minf Has) as (m' & Hr).
  - intros x Hx. apply Hrn. rewrite <- Hrl. auto.
  - intros x k Hx Hk. rewrite Hrl in Hx. rewrite Hc by auto. split; [apply Hmin; auto; lia|].
    destruct (Hwd x Hx) as [_ Hw]. rewrite Hlrel in Hw by auto. specialize (Hw k ltac:(lia)). lra.
  - destruct Hgp as [|[[Gi Gd]|(Hst & Gi & Gd)]]; [left; lia|right; left|right; right]; rewrite Hrl; split.
    + intros x k Hx Hk. rewrite Hc by auto. specialize (Gi (nth x rel []) k (Hrin x Hx) (Hwd x Hx) ltac:(lia)). lra.
    + intros d x y Hdd Hx Hy Hne Hle k Hk1 Hk2. rewrite !Hc by auto.
      destruct (G1 x Hx) as (X1 & X2 & X3), (G1 y Hy) as (Y1 & Y2 & Y3).
      assert (Hgne : g y <> g x) by (destruct (lt_eq_lt_dec x y) as [[H|H]|H]; [| lia |]; apply G2 in H; auto; lia).
      specialize (Gd (g x) (g y) d k X1 Y1 Hgne). rewrite X2, Y2 in Gd.
      assert (Hle' : forall l, (l <= d)%nat -> nth l (nth y rel []) 0 <= nth l (nth x rel []) 0).
      { intros l Hll. specialize (Hle l Hll). rewrite !Hc in Hle by auto. lra. }
      specialize (Gd (Hwd x Hx) (Hwd y Hy) ltac:(lia) Hle' Hk1 Hk2). lra.
    + intros x k Hx Hk. rewrite Hc by auto. specialize (Gi (nth x rel []) k (Hrin x Hx) (Hwd x Hx) ltac:(lia)). lra.
    + split; auto. intros d x y H3 Hdd Hxy Hy Hle Hex Hz. assert (Hx : (x < length rel)%nat) by lia.
      destruct (G1 x Hx) as (X1 & X2 & X3), (G1 y Hy) as (Y1 & Y2 & Y3).
      specialize (Gd (g x) (g y) d (G2 x y Hxy Hy) Y1). rewrite X2, Y2 in Gd.
      assert (Hle' : forall l, (l <= d)%nat -> nth l (nth y rel []) 0 <= nth l (nth x rel []) 0).
      { intros l Hll. specialize (Hle l Hll). rewrite !Hc in Hle by auto. lra. }
      destruct (Gd (Hwd x Hx) (Hwd y Hy) H3 ltac:(lia) Hle') as (l & Hl3 & Hlt).
      * destruct Hex as (l & Hl9 & Hlt). exists l. split; auto. rewrite !Hc in Hlt by auto. lra.
      * intros Ed. destruct (Hz ltac:(lia)) as (z & Hzn & Hzx & Hzy & Hzc). destruct (G1 z Hzn) as (Z1 & Z2 & Z3).
        assert (Hgn : forall a b, (a < length rel)%nat -> (b < length rel)%nat -> a <> b -> g a <> g b)
          by (intros a b Ha Hb Hab; destruct (lt_eq_lt_dec a b) as [[H|H]|H]; [| lia |]; apply G2 in H; auto; lia).
        exists (g z). rewrite Z2. split; auto. split; auto. split; auto. split; auto.
        rewrite !Hc in Hzc by auto. lra.
      * exists l. split; auto. rewrite !Hc by auto. lra.
  - rewrite Hr. cbn [bind fst]. f_equal.
    transitivity (hv (S D) (co ref) (map co rel)).
    + rewrite <- (hv_shift (S D) (co ref) (fun _ => 0) (fun k => - co ref k) (map co rel)) by (intros; lra).
      apply hv_ext_P. rewrite map_map.
      assert (HF : Forall2 (fun p p' : pt => forall k, (k < S D)%nat -> p k = p' k - nth k ref 0) (map co pts) (map co rel)).
      { apply Forall2_map_nth; [auto|]. intros x Hx k Hk. rewrite Hrl in Hx. apply (Hc x k Hx). }
      clear -HF. clearbody pts rel. revert pts HF.
      induction rel as [|q rel IH]; intros [|p pts] HF; simpl in *; inversion HF as [|? ? ? ? Hpq HF']; subst; constructor; auto.
    + apply hv_filter. intros p Hp Hf.
      destruct (not_all_ex (S D) (co p) (co ref)) as [Hle|(k & Hk & Hlt)].
      * exfalso. assert (weakly_dom p ref = true); [|congruence]. apply weakly_dom_spec; [rewrite Eref; auto|].
        split; [rewrite Eref; auto|]. rewrite (Hl p Hp). auto.
      * exists k. split; auto. unfold co in *. lra.
Qed.

Theorem hypervolume_correct (minf : R) argsort (front : list (list R)) (ref : list R) :
  argsort_ok argsort -> (1 <= length ref)%nat ->
  (forall p, In p front -> length p = length ref) ->
  (forall p k, In p front -> weakly_dominates p ref -> (k < length ref)%nat -> minf <= nth k p 0 - nth k ref 0) ->
  (length ref <= 3)%nat \/ harmless_ties front ref ->
  hypervolume minf argsort front ref = Ok (hv (length ref) (co ref) (map co front)).
Proof. intros H1 H2 H3 H4 H5. apply hypervolume_correct_gen; auto. tauto. Qed.

(** * The algebraic volume is the volume of the dominated region *)
Theorem hv_is_hypervolume (front : list (list R)) (ref : list R) :
  (forall p, In p front -> length p = length ref) ->
  is_hypervolume front ref (hv (length ref) (co ref) (map co front)).
Proof.
  intros Hl lo f Hlo Hle Hlow Hind.
  assert (Hb : box_ok lo ref) by (split; auto; rewrite Hlo; auto).
  apply (is_vol_ext lo ref (fun y => b2R (cov (length lo) (map co front) y))); auto.
  - intros y [Hy _]. rewrite Hlo in *. destruct (Hind y) as [H1 H0].
    destruct (cov (length ref) (map co front) y) eqn:E; simpl.
    + symmetry. apply H1. apply cov_spec in E as (q & Hq & Hk). apply in_map_iff in Hq as (p & <- & Hp).
      exists p. split; auto. split; [rewrite Hl; auto|]. rewrite Hl by auto. auto.
    + symmetry. apply H0. intros (p & Hp & Hpl & Hk). rewrite (Hl p Hp) in Hk.
      assert (cov (length ref) (map co front) y = true); [|congruence].
      apply cov_spec. exists (co p). split; [apply in_map; auto|]. auto.
  - rewrite <- Hlo. apply vol_hv; auto. intros p k Hp Hk. apply in_map_iff in Hp as (q & <- & Hq).
    rewrite Hlo in Hk. apply Hlow; auto.
Qed.

(** the specification determines the value *)
Lemma is_hypervolume_unique front ref v w :
  (forall p, In p front -> length p = length ref) ->
  is_hypervolume front ref v -> is_hypervolume front ref w -> v = w.
Proof.
  intros Hl Hv Hw. set (lo := list_of (length ref) (lower (co ref) (map co front))).
  set (f := fun y => b2R (Nat.eqb (length y) (length ref) && cov (length ref) (map co front) y)).
  assert (Hlo : length lo = length ref) by apply list_of_length.
  assert (Hle : forall k, (k < length ref)%nat -> nth k lo 0 <= nth k ref 0).
  { intros k Hk. unfold lo. rewrite list_of_nth by auto. apply (lower_ref (co ref)). }
  assert (Hlow : forall p k, In p front -> (k < length ref)%nat -> nth k lo 0 <= nth k p 0).
  { intros p k Hp Hk. unfold lo. rewrite list_of_nth by auto. apply (lower_le (co ref) (map co front) (co p)), in_map; auto. }
  assert (Hind : is_indicator front f).
  { intros y. unfold f. destruct (Nat.eqb_spec (length y) (length ref)) as [Hy|Hy]; simpl.
    - destruct (cov (length ref) (map co front) y) eqn:E; simpl; split; auto.
      + intros Hn. exfalso. apply Hn. apply cov_spec in E as (q & Hq & Hk). apply in_map_iff in Hq as (p & <- & Hp).
        exists p. split; auto. split; [rewrite Hl; auto|]. rewrite Hl by auto. auto.
      + intros (p & Hp & Hpl & Hk). rewrite (Hl p Hp) in Hk.
        assert (cov (length ref) (map co front) y = true); [|congruence].
        apply cov_spec. exists (co p). split; [apply in_map; auto|]. auto.
    - split; auto. intros (p & Hp & Hpl & Hk). rewrite (Hl p Hp) in Hpl. congruence. }
  apply (is_vol_unique lo ref f); auto. split; auto. rewrite Hlo. auto.
Qed.
