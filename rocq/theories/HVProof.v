(** Correctness of the recursive dimension sweep of the hypervolume algorithm:
    invariants for the cached areas/volumes, the bounds and the ignore flags. *)
From Coq Require Import List Arith Reals Bool Lra Lia Permutation Sorted FunctionalExtensionality.
From Verif Require Import Num Exn ListAux HVModel HVTheory HVLinks.
Import ListNotations.
Open Scope nat_scope.

(** * Strictly sorted lists are determined by their elements *)
Lemma sorted_unique (f : nat -> nat) l l' :
  StronglySorted (fun a b => f a < f b) l -> StronglySorted (fun a b => f a < f b) l' ->
  (forall x, In x l <-> In x l') -> l = l'.
Proof.
  revert l'; induction l as [|x l IH]; intros [|y l'] H1 H2 E; auto.
  - exfalso. apply (E y). simpl; auto.
  - exfalso. apply (E x). simpl; auto.
  - inversion H1 as [|? ? H1a H1b]; inversion H2 as [|? ? H2a H2b]; subst.
    rewrite Forall_forall in H1b, H2b.
    assert (Exy : x = y).
    { destruct (proj1 (E x)) as [->|Hx]; [simpl; auto|auto|].
      destruct (proj2 (E y)) as [->|Hy]; [simpl; auto|auto|].
      specialize (H1b y Hy). specialize (H2b x Hx). lia. }
    subst y. f_equal. apply IH; auto. intros z. split; intros Hz.
    + destruct (proj1 (E z)) as [->|]; [simpl; auto| |auto]. specialize (H1b z Hz). lia.
    + destruct (proj2 (E z)) as [->|]; [simpl; auto| |auto]. specialize (H2b z Hz). lia.
Qed.
Lemma sorted_NoDup (f : nat -> nat) l : StronglySorted (fun a b => f a < f b) l -> NoDup l.
Proof.
  induction 1 as [|x l Hs IH Hf]; constructor; auto. rewrite Forall_forall in Hf.
  intros Hin. specialize (Hf x Hin). lia.
Qed.
Lemma sorted_app_lt (f : nat -> nat) l1 l2 x y :
  StronglySorted (fun a b => f a < f b) (l1 ++ l2) -> In x l1 -> In y l2 -> f x < f y.
Proof.
  induction l1 as [|z l1 IH]; simpl; [tauto|]. intros Hs Hx Hy. inversion Hs as [|? ? Ha Hb]; subst.
  destruct Hx as [->|Hx]; [|auto]. rewrite Forall_forall in Hb. apply Hb, in_or_app. auto.
Qed.

(** * Reading a linked list *)
Lemma Rep_nx N P s l1 x l2 : Rep N P s (l1 ++ x :: l2) -> N x = hd s l2.
Proof.
  intros [_ Hadj]. apply (Hadj x (hd s l2)). destruct l2 as [|y l2].
  - exists (s :: l1), []. simpl. rewrite <- app_assoc. reflexivity.
  - exists (s :: l1), (l2 ++ [s]). simpl. rewrite <- app_assoc. reflexivity.
Qed.
Lemma Rep_nx0 N P s l : Rep N P s l -> N s = hd s l.
Proof.
  intros [_ Hadj]. apply (Hadj s (hd s l)). destruct l as [|y l].
  - exists [], []. reflexivity.
  - exists [], (l ++ [s]). reflexivity.
Qed.
Lemma Rep_pv N P s l1 x l2 : Rep N P s (l1 ++ x :: l2) -> P x = last l1 s.
Proof.
  intros [_ Hadj]. apply (Hadj (last l1 s) x). destruct (exists_last (l := s :: l1)) as (u & a & E); [discriminate|].
  assert (Ea : last l1 s = a).
  { destruct l1 as [|y l1]; [destruct u as [|? [|]]; inversion E; auto|].
    change (last (y :: l1) s = a). assert (H : last (s :: y :: l1) s = a) by (rewrite E; apply last_last).
    exact H. }
  rewrite Ea. exists u, (l2 ++ [s]). rewrite <- app_assoc. simpl.
  change (s :: l1 ++ x :: l2 ++ [s]) with ((s :: l1) ++ x :: l2 ++ [s]). rewrite E, <- app_assoc. reflexivity.
Qed.
Lemma Rep_pv0 N P s l : Rep N P s l -> P s = last l s.
Proof.
  intros [_ Hadj]. apply (Hadj (last l s) s). destruct (exists_last (l := s :: l)) as (u & a & E); [discriminate|].
  assert (Ea : last l s = a).
  { destruct l as [|y l]; [destruct u as [|? [|]]; inversion E; auto|].
    change (last (y :: l) s = a). assert (H : last (s :: y :: l) s = a) by (rewrite E; apply last_last).
    exact H. }
  rewrite Ea. exists u, []. change (s :: l ++ [s]) with ((s :: l) ++ [s]). rewrite E, <- app_assoc. reflexivity.
Qed.

Definition inb (S : list nat) (y : nat) : bool := existsb (Nat.eqb y) S.
Lemma inb_spec S y : inb S y = true <-> In y S.
Proof.
  unfold inb. rewrite existsb_exists. split.
  - intros (x & Hx & E). apply Nat.eqb_eq in E. subst; auto.
  - intros Hy. exists y. split; auto. apply Nat.eqb_refl.
Qed.
Lemma inb_false S y : inb S y = false <-> ~ In y S.
Proof. rewrite <- inb_spec. destruct (inb S y); split; congruence. Qed.

Section Sweep.
Open Scope R_scope.
Variable pts : list (list R).
Variable D : nat.                       (* index of the last coordinate *)
Notation n := (length pts).
Definition c (x k : nat) : R := nth k (nth x pts []) 0.
Hypothesis Hlen : forall x, (x < n)%nat -> length (nth x pts []) = S D.
Hypothesis Hneg : forall x k, (x < n)%nat -> (k <= D)%nat -> c x k <= 0.

Variable M : nat -> list nat.           (* the master order of every list *)
Variable pos : nat -> nat -> nat.       (* position in the master order *)
Hypothesis HM : forall k, (k <= D)%nat -> Permutation (M k) (seq 0 n).
Hypothesis Hpos : forall k, (k <= D)%nat -> StronglySorted (fun a b => (pos k a < pos k b)%nat) (M k).
Hypothesis Hcoord : forall k a b, (k <= D)%nat -> (a < n)%nat -> (b < n)%nat ->
  (pos k a < pos k b)%nat -> c a k <= c b k.

(** Needed from four dimensions on: a point that comes first in the order of dimension [d]
    and is no worse up to [d] also comes first in the orders below (not needed in the last
    dimension for the last point). *)
Variable GP : Prop.
Hypothesis HGP1 : GP -> forall x k, (x < n)%nat -> (k < D)%nat -> c x k < 0.
Hypothesis HGP2 : GP -> forall d x y, (d <= D)%nat -> (x < n)%nat -> (y < n)%nat -> y <> x ->
  (forall k, (k <= d)%nat -> c y k <= c x k) -> (pos d y < pos d x)%nat ->
  (d = D -> exists z, (z < n)%nat /\ (pos D x < pos D z)%nat) ->
  forall k, (2 <= k)%nat -> (k < d)%nat -> (pos k y < pos k x)%nat.
Hypothesis HGP3 : (3 <= D)%nat -> GP.

Definition nodes (S : list nat) : Prop := forall x, In x S -> (x < n)%nat.
Definition sub (S : list nat) (k : nat) : list nat := filter (inb S) (M k).
Definition Hv (k : nat) (S : list nat) : R := hv k (fun _ => 0) (map c S).
Definition pre (k : nat) (S : list nat) (x : nat) : list nat :=
  filter (fun y => Nat.leb (pos k y) (pos k x)) S.
Definition W (k : nat) (S : list nat) (x : nat) : R :=
  Hv (k + 1) (pre k S x) + Hv k (pre k S x) * c x k.

Lemma cg_c x k : (x < n)%nat -> (k <= D)%nat -> cg pts x k = Ok (c x k).
Proof using Hlen.
  clear HGP3. intros Hx Hk. unfold cg, c. rewrite (nth_error_nth' pts [] Hx).
  rewrite (nth_error_nth' (nth x pts []) 0%R); [reflexivity|]. rewrite Hlen; auto. lia.
Qed.

Lemma M_in k x : (k <= D)%nat -> In x (M k) <-> (x < n)%nat.
Proof.
  intros Hk. split; intros Hx.
  - apply (Permutation_in _ (HM k Hk)) in Hx. apply in_seq in Hx. lia.
  - apply (Permutation_in _ (Permutation_sym (HM k Hk))). apply in_seq. lia.
Qed.
Lemma pos_inj k x y : (k <= D)%nat -> (x < n)%nat -> (y < n)%nat -> pos k x = pos k y -> x = y.
Proof.
  intros Hk Hx Hy E. apply (M_in k x Hk) in Hx. apply (M_in k y Hk) in Hy.
  apply in_split in Hx as (l1 & l2 & El). pose proof (Hpos k Hk) as Hs. rewrite El in *.
  apply in_app_iff in Hy as [Hy|[Hy|Hy]]; auto.
  - pose proof (sorted_app_lt _ _ _ y x Hs Hy ltac:(simpl; auto)). lia.
  - replace (l1 ++ x :: l2) with ((l1 ++ [x]) ++ l2) in Hs by (rewrite <- app_assoc; auto).
    pose proof (sorted_app_lt _ _ _ x y Hs ltac:(apply in_or_app; simpl; auto) Hy). lia.
Qed.
Lemma coord_pos k x y : (k <= D)%nat -> (x < n)%nat -> (y < n)%nat -> c x k < c y k -> (pos k x < pos k y)%nat.
Proof.
  intros Hk Hx Hy Hlt. destruct (Nat.lt_trichotomy (pos k x) (pos k y)) as [|[E|Hgt]]; auto.
  - apply pos_inj in E; auto. subst. lra.
  - pose proof (Hcoord k y x Hk Hy Hx Hgt). lra.
Qed.

Lemma sub_in S k x : nodes S -> (k <= D)%nat -> In x (sub S k) <-> In x S.
Proof.
  intros HS Hk. unfold sub. rewrite filter_In, inb_spec, M_in by auto. split; [tauto|]. auto.
Qed.
Lemma sub_sorted S k : (k <= D)%nat -> StronglySorted (fun a b => (pos k a < pos k b)%nat) (sub S k).
Proof. intros Hk. unfold sub. apply StronglySorted_filter. auto. Qed.
Lemma sub_unique S k l : nodes S -> (k <= D)%nat ->
  StronglySorted (fun a b => (pos k a < pos k b)%nat) l -> (forall x, In x l <-> In x S) -> sub S k = l.
Proof.
  intros HS Hk Hl E. apply (sorted_unique (pos k)); auto; [apply sub_sorted; auto|].
  intros x. rewrite sub_in by auto. symmetry. apply E.
Qed.
Lemma sub_length S k : nodes S -> NoDup S -> (k <= D)%nat -> length (sub S k) = length S.
Proof.
  intros HS Hnd Hk. apply Permutation_length, NoDup_Permutation; auto.
  - eapply sorted_NoDup. apply (sub_sorted S k Hk).
  - intros x. apply sub_in; auto.
Qed.
Lemma sorted_prefix (f : nat -> nat) a v :
  StronglySorted (fun a b => (f a < f b)%nat) (a ++ v) -> StronglySorted (fun a b => (f a < f b)%nat) a.
Proof.
  induction a as [|x a IH]; simpl; intros Hs; [constructor|]. inversion Hs as [|? ? H1 H2]; subst.
  constructor; auto. rewrite Forall_forall in *. intros y Hy. apply H2, in_or_app. auto.
Qed.

Lemma Hv_set k A B : (forall y, In y A <-> In y B) -> Hv k A = Hv k B.
Proof.
  intros E. unfold Hv. apply hv_same_set. intros p. rewrite !in_map_iff.
  split; intros (x & Ex & Hx); exists x; split; auto; apply E; auto.
Qed.
Lemma Hv_mono k A B : (forall y, In y A -> In y B) -> Hv k A <= Hv k B.
Proof.
  intros E. unfold Hv. apply hv_incl. intros p. rewrite !in_map_iff. intros (x & Ex & Hx). exists x; split; auto.
Qed.
Lemma Hv_slab d A p : (d <= D)%nat -> nodes A -> (p < n)%nat -> (forall y, In y A -> c y d <= c p d) ->
  Hv (S d) (p :: A) - Hv (S d) A = - c p d * (Hv d (p :: A) - Hv d A).
Proof.
  intros Hd HA Hp Hle. unfold Hv. cbn [map]. rewrite hv_slab.
  - rewrite Rmax_right; [ring|]. pose proof (Hneg p d Hp Hd). lra.
  - intros q Hq. apply in_map_iff in Hq as (y & <- & Hy). auto.
Qed.
Lemma Hv_dom d A p y : In y A -> (forall k, (k < d)%nat -> c y k <= c p k) -> Hv d (p :: A) = Hv d A.
Proof. intros Hy Hle. unfold Hv. cbn [map]. apply (hv_dominated _ _ _ _ (c y)); auto. apply in_map; auto. Qed.
Lemma Hv_nil d : Hv d [] = 0.
Proof. reflexivity. Qed.

Lemma pre_in k S x y : In y (pre k S x) <-> In y S /\ (pos k y <= pos k x)%nat.
Proof. unfold pre. rewrite filter_In, Nat.leb_le. tauto. Qed.

(** prefixes of the list of dimension [d] *)
Lemma pre_prefix S d u q v : nodes S -> (d <= D)%nat -> sub S d = (u ++ [q]) ++ v ->
  forall y, In y (pre d S q) <-> In y (u ++ [q]).
Proof.
  intros HS Hd E y. rewrite pre_in. pose proof (sub_sorted S d Hd) as Hs. rewrite E in Hs.
  rewrite <- (sub_in S d y HS Hd), E. rewrite in_app_iff. split.
  - intros [[Hy|Hy] Hle]; auto. exfalso.
    pose proof (sorted_app_lt _ _ _ q y Hs ltac:(apply in_or_app; simpl; auto) Hy). lia.
  - intros Hy. split; auto. apply in_app_iff in Hy as [Hy|[<-|[]]]; auto.
    apply sorted_prefix in Hs. pose proof (sorted_app_lt _ _ _ y q Hs Hy ltac:(simpl; auto)). lia.
Qed.

Lemma W_first S d q v : nodes S -> (d <= D)%nat -> sub S d = [q] ++ v -> W d S q = 0.
Proof.
  intros HS Hd E. pose proof (pre_prefix S d [] q v HS Hd E) as Hp. unfold W.
  rewrite !(Hv_set _ _ _ Hp). simpl app.
  assert (Hq : (q < n)%nat) by (apply HS, (sub_in S d q HS Hd); rewrite E; simpl; auto).
  pose proof (Hv_slab d [] q Hd ltac:(intros ? []) Hq ltac:(intros ? [])) as Hsl. rewrite !Hv_nil in Hsl.
  rewrite Nat.add_1_r. lra.
Qed.
Lemma W_step S d u q p v : nodes S -> (d <= D)%nat -> sub S d = ((u ++ [q]) ++ [p]) ++ v ->
  W d S p = W d S q + Hv d (pre d S q) * (c p d - c q d).
Proof.
  intros HS Hd E. pose proof (pre_prefix S d (u ++ [q]) p v HS Hd E) as Hp.
  assert (E' : sub S d = (u ++ [q]) ++ p :: v) by (rewrite E, <- app_assoc; auto).
  pose proof (pre_prefix S d u q (p :: v) HS Hd E') as Hq. unfold W.
  assert (Hpn : (p < n)%nat) by (apply HS, (sub_in S d p HS Hd); rewrite E'; rewrite in_app_iff; simpl; auto).
  assert (Hn : nodes (u ++ [q])) by (intros x Hx; apply HS, (sub_in S d x HS Hd); rewrite E'; rewrite in_app_iff; auto).
  rewrite !(Hv_set _ _ _ Hq).
  assert (Hp' : forall y, In y (pre d S p) <-> In y (p :: (u ++ [q]))).
  { intros y. rewrite Hp, !in_app_iff. simpl. rewrite in_app_iff. simpl. tauto. }
  rewrite !(Hv_set _ _ _ Hp').
  pose proof (Hv_slab d (u ++ [q]) p Hd Hn Hpn) as Hsl. rewrite Nat.add_1_r.
  assert (Hle : forall y, In y (u ++ [q]) -> c y d <= c p d).
  { intros y Hy. apply Hcoord; auto. pose proof (sub_sorted S d Hd) as Hs. rewrite E' in Hs.
    apply (sorted_app_lt _ _ _ y p Hs Hy). simpl; auto. }
  specialize (Hsl Hle). lra.
Qed.
Lemma W_last S d u q : nodes S -> (d <= D)%nat -> sub S d = u ++ [q] ->
  W d S q - Hv d (pre d S q) * c q d = Hv (d + 1) S.
Proof.
  intros HS Hd E. unfold W.
  assert (E' : sub S d = (u ++ [q]) ++ []) by (rewrite app_nil_r; auto).
  pose proof (pre_prefix S d u q [] HS Hd E') as Hp.
  assert (Hps : forall y, In y (pre d S q) <-> In y S).
  { intros y. rewrite Hp, <- E. apply sub_in; auto. }
  rewrite !(Hv_set _ _ _ Hps). ring.
Qed.

(** * Level 1: the two-dimensional sweep *)
Lemma hv1_cons (p : pt) P : p 0%nat <= 0 -> (forall q, In q P -> q 0%nat <= 0) ->
  hv 1 (fun _ => 0) (p :: P) = Rmax (- p 0%nat) (hv 1 (fun _ => 0) P).
Proof.
  intros Hp HP.
  assert (Hone : forall x : pt, x 0%nat <= 0 -> hv 1 (fun _ => 0) [x] = - x 0%nat).
  { intros x Hx. simpl. unfold box. simpl. rewrite Rmax_right by lra. ring. }
  assert (Hdec : (exists x, In x P /\ x 0%nat <= p 0%nat) \/ (forall x, In x P -> p 0%nat <= x 0%nat)).
  { clear -P. induction P as [|q P IH]; [right; intros ? []|]. destruct IH as [(x & Hx & Hle)|IH].
    - left; exists x; split; auto; right; auto.
    - destruct (Rle_lt_dec (q 0%nat) (p 0%nat)); [left; exists q; split; auto; left; auto|right].
      intros x [<-|Hx]; [lra|auto]. }
  destruct Hdec as [(x & Hx & Hle)|Hall].
  - rewrite (hv_dominated 1 _ P p x Hx) by (intros k Hk; assert (k = 0)%nat as -> by lia; auto).
    assert (hv 1 (fun _ => 0) [x] <= hv 1 (fun _ => 0) P) by (apply hv_incl; intros ? [<-|[]]; auto).
    rewrite Hone in H by (apply HP; auto). rewrite Rmax_right; lra.
  - assert (E1 : hv 1 (fun _ => 0) (p :: P) = hv 1 (fun _ => 0) [p]).
    { apply Rle_antisym; apply hv_mono.
      - intros x Hx. exists p. split; [left; auto|]. intros k Hk; assert (k = 0)%nat as -> by lia.
        destruct Hx as [<-|Hx]; [lra|auto].
      - intros x [<-|[]]. exists p. split; [left; auto|intros; lra]. }
    assert (E2 : hv 1 (fun _ => 0) P <= hv 1 (fun _ => 0) [p]).
    { apply hv_mono. intros x Hx. exists p. split; [left; auto|]. intros k Hk; assert (k = 0)%nat as -> by lia. auto. }
    rewrite Hone in * by auto. rewrite E1, Rmax_left; lra.
Qed.
Lemma Hv1_cons A p : (p < n)%nat -> nodes A -> Hv 1 (p :: A) = Rmax (- c p 0%nat) (Hv 1 A).
Proof.
  intros Hp HA. unfold Hv. cbn [map]. apply hv1_cons; [apply Hneg; auto; lia|].
  intros q Hq. apply in_map_iff in Hq as (y & <- & Hy). apply Hneg; auto; lia.
Qed.

Lemma sweep2_spec S (m : @mem R) v : nodes S -> (1 <= D)%nat ->
  forall fuel u q h hvol, (length v < fuel)%nat -> sub S 1 = (u ++ [q]) ++ v ->
  Rep (nx m 1) (pv m 1) n (sub S 1) ->
  h = - Hv 1 (pre 1 S q) -> hvol = W 1 S q ->
  sweep2 pts fuel m q (hd n v) h hvol = Ok (Hv 2 S).
Proof.
  intros HS HD. induction v as [|p v IH]; intros fuel u q h hvol Hf E HR Hh Hvol; (destruct fuel as [|fuel]; [simpl in Hf; lia|]).
  - cbn [sweep2 hd]. rewrite Nat.eqb_refl.
    assert (Hq : (q < n)%nat) by (apply HS, (sub_in S 1 q HS HD); rewrite E; rewrite !in_app_iff; simpl; auto).
    rewrite (cg_c q 1 Hq HD). cbn [bind]. f_equal. rewrite app_nil_r in E.
    change (Hv 2 S) with (Hv (1 + 1) S). rewrite <- (W_last S 1 u q HS HD E). subst h hvol. numR. ring.
  - cbn [sweep2 hd].
    assert (Hq : (q < n)%nat) by (apply HS, (sub_in S 1 q HS HD); rewrite E; rewrite !in_app_iff; simpl; auto).
    assert (Hp : (p < n)%nat) by (apply HS, (sub_in S 1 p HS HD); rewrite E; rewrite !in_app_iff; simpl; auto).
    assert (Hpn : Nat.eqb p n = false) by (apply Nat.eqb_neq; lia). rewrite Hpn.
    rewrite (cg_c q 1 Hq HD), (cg_c p 1 Hp HD), (cg_c p 0 Hp) by lia. cbn [bind].
    assert (E' : sub S 1 = ((u ++ [q]) ++ [p]) ++ v) by (rewrite E, <- !app_assoc; auto).
    assert (En : nx m 1 p = hd n v) by (rewrite E in HR; apply (Rep_nx _ _ _ _ _ _ HR)).
    rewrite En. apply (IH fuel (u ++ [q])); auto; [simpl in Hf; lia| |].
    + pose proof (pre_prefix S 1 (u ++ [q]) p v HS HD E') as Hpp. pose proof (pre_prefix S 1 u q (p :: v) HS HD E) as Hpq.
      assert (Hp' : forall y, In y (pre 1 S p) <-> In y (p :: (u ++ [q]))).
      { intros y. rewrite Hpp, !in_app_iff. simpl. rewrite in_app_iff. simpl. tauto. }
      rewrite (Hv_set _ _ _ Hp'), Hv1_cons; auto.
      * rewrite (Hv_set _ _ _ Hpq) in Hh. subst h. unfold Rmax.
        destruct (nltb_spec (c p 0%nat) (- Hv 1 (u ++ [q]))); destruct (Rle_dec (- c p 0%nat) (Hv 1 (u ++ [q]))); lra.
      * intros x Hx. apply HS, (sub_in S 1 x HS HD). rewrite E, in_app_iff. auto.
    + rewrite (W_step S 1 u q p v HS HD E'). subst. numR. ring.
Qed.

Lemma level1 S (m : @mem R) fuel : nodes S -> NoDup S -> S <> [] -> (1 <= D)%nat -> (length S < fuel)%nat ->
  Rep (nx m 1) (pv m 1) n (sub S 1) ->
  hv_recursive pts fuel 1 (length S) m = Ok (Hv 2 S, m).
Proof.
  intros HS Hnd Hne HD Hf HR. cbn [hv_recursive].
  destruct (Nat.eqb_spec (length S) 0) as [E|_]; [destruct S; [congruence|discriminate]|].
  pose proof (sub_length S 1 HS Hnd HD) as Hl. destruct (sub S 1) as [|q v] eqn:E; [simpl in Hl; destruct S; [congruence|discriminate]|].
  rewrite (Rep_nx0 _ _ _ _ HR). cbn [hd].
  assert (Hq : (q < n)%nat) by (apply HS, (sub_in S 1 q HS HD); rewrite E; simpl; auto).
  simpl Nat.eqb. cbv iota. rewrite (cg_c q 0 Hq) by lia. cbn [bind].
  rewrite (Rep_nx _ _ _ [] _ _ HR).
  rewrite (sweep2_spec S m v HS HD fuel [] q); auto.
  - simpl in Hl. lia.
  - rewrite E. auto.
  - pose proof (pre_prefix S 1 [] q v HS HD E) as Hp. rewrite (Hv_set _ _ _ Hp). simpl.
    rewrite Hv1_cons; auto; [|intros ? []]. rewrite Hv_nil. pose proof (Hneg q 0 Hq ltac:(lia)). rewrite Rmax_left; lra.
  - symmetry. apply (W_first S 1 q v); auto.
Qed.


(** * Invariants *)
(** cached areas and volumes of list [i] that the bounds declare valid are correct *)
Definition CV (i : nat) (S : list nat) (m : @mem R) : Prop :=
  forall x, In x S -> c x i < bd m i -> ar m i x = Hv i (pre i S x) /\ vo m i x = W i S x.

(** [y] makes [x] irrelevant at all levels up to [f] *)
Definition sdom (f y x : nat) : Prop :=
  (forall k, (k < f)%nat -> c y k <= c x k) /\
  (forall k, (2 <= k)%nat -> (k <= f)%nat -> (pos k y < pos k x)%nat).

(** ignore flags at or above level [d] are justified *)
Definition FV (d : nat) (S : list nat) (m : @mem R) : Prop :=
  forall x, In x S -> (d <= ig m x)%nat -> exists y, In y S /\ sdom (ig m x) y x.

Definition LinkOK (d : nat) (S : list nat) (L : links) : Prop :=
  forall i, (i <= d)%nat -> Rep (fst L i) (snd L i) n (sub S i).

Lemma CV_change i S S' (m m' : @mem R) : ar m' i = ar m i -> vo m' i = vo m i ->
  (forall x, In x S' -> c x i < bd m' i -> In x S /\ c x i < bd m i /\
     (forall y, (pos i y <= pos i x)%nat -> (In y S <-> In y S'))) ->
  CV i S m -> CV i S' m'.
Proof.
  intros Ea Ev Hch HC x Hx Hb. destruct (Hch x Hx Hb) as (Hx1 & Hb1 & Hy).
  destruct (HC x Hx1 Hb1) as [E1 E2]. rewrite Ea, Ev, E1, E2.
  assert (E : forall y, In y (pre i S x) <-> In y (pre i S' x)).
  { intros y. rewrite !pre_in. split; intros [H1 H2]; split; auto; apply (Hy y H2); auto. }
  unfold W. rewrite !(Hv_set _ _ _ E). auto.
Qed.

(** * The removed suffix *)
Section Level.
Variable d : nat.
Hypothesis Hd2 : (2 <= d)%nat.
Hypothesis HdD : (d <= D)%nat.
Variable S : list nat.
Hypothesis HS : nodes S.
Hypothesis HndS : NoDup S.
Variable L0 : links.
Hypothesis HL0 : LinkOK d S L0.

Definition Lk (v : list nat) : links := fold_right (lrem d) L0 v.

Lemma Lk_high v i : (d <= i)%nat -> fst (Lk v) i = fst L0 i /\ snd (Lk v) i = snd L0 i.
Proof.
  intros Hi. induction v as [|x v IH]; simpl; auto. destruct IH as [I1 I2].
  assert (E : Nat.ltb i d = false) by (apply Nat.ltb_ge; auto). rewrite E. simpl.
  split; extensionality y; [rewrite I1|rewrite I2]; auto.
Qed.

Lemma Rep_ext N P N' P' s l : (forall y, N y = N' y) -> (forall y, P y = P' y) -> Rep N P s l -> Rep N' P' s l.
Proof.
  intros EN EP [H1 H2]. split; auto. intros a b Hab. rewrite <- EN, <- EP. auto.
Qed.

Lemma xs_nodes a v : sub S d = a ++ v -> nodes a.
Proof. intros E x Hx. apply HS, (sub_in S d x HS HdD). rewrite E, in_app_iff. auto. Qed.
Lemma xs_nodes_v a v : sub S d = a ++ v -> nodes v.
Proof. intros E x Hx. apply HS, (sub_in S d x HS HdD). rewrite E, in_app_iff. auto. Qed.

Lemma Lk_rep v : forall a, sub S d = a ++ v ->
  (forall i, (i < d)%nat -> Rep (fst (Lk v) i) (snd (Lk v) i) n (sub a i)) /\
  (match v with [] => True | x :: v' => consistent d x (Lk v') end).
Proof.
  induction v as [|x v IH]; intros a E.
  - split; auto. intros i Hi. simpl. rewrite app_nil_r in E.
    replace (sub a i) with (sub S i); [apply HL0; lia|].
    symmetry. apply sub_unique; [rewrite <- E; intros y Hy; apply HS, (sub_in S d y HS HdD); auto|lia|apply sub_sorted; lia|].
    intros y. rewrite sub_in by (auto; lia). rewrite <- E. symmetry. apply sub_in; auto.
  - assert (E' : sub S d = (a ++ [x]) ++ v) by (rewrite E, <- app_assoc; auto).
    destruct (IH (a ++ [x]) E') as [IHr _]. pose proof (xs_nodes _ _ E') as Hn.
    assert (Hxa : ~ In x a).
    { pose proof (sorted_NoDup _ _ (sub_sorted S d HdD)) as Hnd. rewrite E in Hnd.
      apply NoDup_remove_2 in Hnd. rewrite in_app_iff in Hnd. tauto. }
    assert (Hstep : forall i, (i < d)%nat -> exists l1 l2, sub (a ++ [x]) i = l1 ++ x :: l2 /\ sub a i = l1 ++ l2).
    { intros i Hi. assert (Hx : In x (sub (a ++ [x]) i)) by (apply sub_in; auto; [lia|rewrite in_app_iff; simpl; auto]).
      apply in_split in Hx as (l1 & l2 & El). exists l1, l2. split; auto.
      pose proof (sub_sorted (a ++ [x]) i ltac:(lia)) as Hs. rewrite El in Hs.
      apply sub_unique; [intros y Hy; apply Hn; rewrite in_app_iff; auto|lia| |].
      - clear -Hs. induction l1 as [|z l1 IH]; simpl in *; inversion Hs as [|? ? H1 H2]; subst; auto.
        constructor; auto. rewrite Forall_forall in *. intros w Hw. apply H2.
        rewrite in_app_iff in *. simpl. tauto.
      - intros y. pose proof (sub_in (a ++ [x]) i y Hn ltac:(lia)) as Hy. rewrite El in Hy.
        pose proof (sorted_NoDup _ _ Hs) as Hnd. apply NoDup_remove_2 in Hnd.
        rewrite !in_app_iff in *. simpl in Hy. split.
        + intros Hy2. destruct (proj1 Hy) as [|[<-|[]]]; auto; [tauto|]. tauto.
        + intros Hya. destruct (proj2 Hy) as [|[<-|]]; auto. contradiction. }
    split.
    + intros i Hi. destruct (Hstep i Hi) as (l1 & l2 & E1 & E2). specialize (IHr i Hi). rewrite E1 in IHr.
      apply Rep_remove in IHr as (HR & _). rewrite E2. revert HR. apply Rep_ext; intros y; simpl;
        assert (El : Nat.ltb i d = true) by (apply Nat.ltb_lt; auto); rewrite El; reflexivity.
    + intros i Hi. destruct (Hstep i Hi) as (l1 & l2 & E1 & E2). specialize (IHr i Hi). rewrite E1 in IHr.
      apply Rep_remove in IHr as (_ & H1 & H2 & H3 & H4). auto.
Qed.

Lemma Lk_next v u q w : sub S d = (u ++ [q]) ++ w -> fst (Lk v) d q = hd n w.
Proof.
  intros E. destruct (Lk_high v d (le_n d)) as [E1 _]. rewrite E1.
  pose proof (HL0 d (le_n d)) as HR. rewrite E in HR. rewrite <- app_assoc in HR. simpl in HR.
  apply (Rep_nx _ _ _ _ _ _ HR).
Qed.
Lemma Lk_prev v u q w : sub S d = (u ++ [q]) ++ w -> snd (Lk v) d q = last u n.
Proof.
  intros E. destruct (Lk_high v d (le_n d)) as [_ E2]. rewrite E2.
  pose proof (HL0 d (le_n d)) as HR. rewrite E in HR. rewrite <- app_assoc in HR. simpl in HR.
  apply (Rep_pv _ _ _ _ _ _ HR).
Qed.

Lemma sub_prefix a v : sub S d = a ++ v -> sub a d = a.
Proof.
  intros E. apply sub_unique; auto; [eapply xs_nodes; eauto| |tauto].
  pose proof (sub_sorted S d HdD) as Hs. rewrite E in Hs. eapply sorted_prefix; eauto.
Qed.
Lemma prefix_NoDup a v : sub S d = a ++ v -> NoDup a.
Proof.
  intros E. pose proof (sorted_NoDup _ _ (sub_sorted S d HdD)) as Hnd. rewrite E in Hnd.
  apply NoDup_app_iff in Hnd. tauto.
Qed.

(** ** Reset of the flags *)
Lemma reset_spec (m : @mem R) : lk m = L0 -> forall a v fuel, sub S d = a ++ v -> (length a < fuel)%nat ->
  forall ig1, reset_ignore pts fuel d (last a n) (mkMem (nx m) (pv m) ig1 (ar m) (vo m) (bd m)) =
    Ok (mkMem (nx m) (pv m) (fun x => if inb a x && Nat.ltb (ig1 x) d then 0%nat else ig1 x) (ar m) (vo m) (bd m)).
Proof.
  intros Hlk a. induction a as [|q a IH] using rev_ind; intros v fuel E Hf ig1; (destruct fuel as [|fuel]; [lia|]).
  - simpl. rewrite Nat.eqb_refl. reflexivity.
  - rewrite last_last. cbn [reset_ignore].
    assert (Hq : (q < n)%nat) by (apply (xs_nodes _ _ E); rewrite in_app_iff; simpl; auto).
    assert (Hqn : Nat.eqb q n = false) by (apply Nat.eqb_neq; lia). rewrite Hqn.
    assert (Hprev : pv m d q = last a n).
    { change (pv m) with (snd (lk m)). rewrite Hlk. apply (Lk_prev [] a q v E). }
    assert (E' : sub S d = a ++ q :: v) by (rewrite E, <- app_assoc; auto).
    assert (Hqa : ~ In q a).
    { pose proof (prefix_NoDup _ _ E) as Hnd. apply NoDup_remove_2 in Hnd. rewrite app_nil_r in Hnd. auto. }
    rewrite app_length in Hf. simpl in Hf.
    cbn [ig nx pv]. destruct (Nat.ltb (ig1 q) d) eqn:El.
    + unfold set_ig. cbn [nx pv ig ar vo bd]. rewrite Hprev. rewrite (IH _ fuel E') by lia.
      do 2 f_equal. extensionality x. unfold upd1, inb. rewrite existsb_app. simpl.
      destruct (Nat.eqb_spec x q) as [->|Hne].
      * rewrite El, !orb_true_r. simpl. destruct (existsb _ a && _); auto.
      * rewrite !orb_false_r. auto.
    + cbn [pv]. rewrite Hprev. rewrite (IH _ fuel E') by lia.
      do 2 f_equal. extensionality x. unfold inb. rewrite existsb_app. simpl.
      destruct (Nat.eqb_spec x q) as [->|Hne].
      * rewrite El, !andb_false_r. auto.
      * rewrite !orb_false_r. auto.
Qed.

(** ** Removal loop *)
Lemma low_le x b i : low c x b i <= b /\ low c x b i <= c x i.
Proof. unfold low. destruct (nltb_spec (c x i) b); lra. Qed.

Lemma removal_spec (mb : @mem R) u : forall q v (m : @mem R), sub S d = (u ++ [q]) ++ v ->
  lk m = Lk v -> ig m = ig mb -> ar m = ar mb -> vo m = vo mb ->
  (forall i, (d <= i)%nat -> bd m i = bd mb i) ->
  (forall i, (i < d)%nat -> bd m i <= bd mb i /\ forall x, In x v -> bd m i <= c x i) ->
  exists u' q' v' m',
    removal_loop pts d (length (u ++ [q])) (hd n v) q m = Ok (hd n v', q', length (u' ++ [q']), m') /\
    sub S d = (u' ++ [q']) ++ v' /\
    lk m' = Lk v' /\ ig m' = ig mb /\ ar m' = ar mb /\ vo m' = vo mb /\
    (forall i, (d <= i)%nat -> bd m' i = bd mb i) /\
    (forall i, (i < d)%nat -> bd m' i <= bd mb i /\ forall x, In x v' -> bd m' i <= c x i) /\
    (u' = [] \/ c (last u' n) d < bd mb d).
Proof.
  induction u as [|q1 u IH] using rev_ind; intros q v m E Hlk Hig Har Hvo Hb1 Hb2.
  - exists [], q, v, m. simpl. repeat (split; auto).
  - assert (Hq : (q < n)%nat) by (apply (xs_nodes _ _ E); rewrite !in_app_iff; simpl; auto).
    assert (Hq1 : (q1 < n)%nat) by (apply (xs_nodes _ _ E); rewrite !in_app_iff; simpl; auto).
    assert (Hprev : pv m d q = q1).
    { change (pv m) with (snd (lk m)). rewrite Hlk, (Lk_prev v _ q v E). apply last_last. }
    assert (El : length ((u ++ [q1]) ++ [q]) = Datatypes.S (length (u ++ [q1]))) by (rewrite app_length; simpl; lia).
    rewrite El. cbn [removal_loop].
    assert (Hleb : Nat.leb (length (u ++ [q1])) 0 = false) by (rewrite app_length; simpl; apply Nat.leb_gt; lia).
    rewrite Hleb, (cg_c q d Hq HdD). cbn [bind]. rewrite Hprev, (cg_c q1 d Hq1 HdD). cbn [bind].
    assert (Hcase : forall again : bool,
       (again = false -> c q1 d < bd m d) ->
       exists u' q' v' m',
         (if again then do m1 <- remove pts q d m; removal_loop pts d (length (u ++ [q1])) q (pv m1 d q) m1
          else Ok (hd n v, q, Datatypes.S (length (u ++ [q1])), m)) = Ok (hd n v', q', length (u' ++ [q']), m') /\
         sub S d = (u' ++ [q']) ++ v' /\
         lk m' = Lk v' /\ ig m' = ig mb /\ ar m' = ar mb /\ vo m' = vo mb /\
         (forall i, (d <= i)%nat -> bd m' i = bd mb i) /\
         (forall i, (i < d)%nat -> bd m' i <= bd mb i /\ forall x, In x v' -> bd m' i <= c x i) /\
         (u' = [] \/ c (last u' n) d < bd mb d)).
    { intros [|] Hag.
      - rewrite (remove_spec pts c q d m) by (intros i Hi; apply cg_c; auto; lia). cbn [bind].
        set (m1 := mkMem _ _ _ _ _ _).
        assert (E' : sub S d = (u ++ [q1]) ++ q :: v) by (rewrite E, <- app_assoc; auto).
        assert (Hlk1 : lk m1 = Lk (q :: v)) by (unfold lk, m1; simpl; rewrite <- Hlk; reflexivity).
        assert (Hp1 : pv m1 d q = q1).
        { change (pv m1) with (snd (lk m1)). rewrite Hlk1, (Lk_prev _ _ q v E). apply last_last. }
        rewrite Hp1. apply (IH q1 (q :: v) m1); auto.
        + intros i Hi. unfold m1; simpl. assert (Ei : Nat.ltb i d = false) by (apply Nat.ltb_ge; auto). rewrite Ei. auto.
        + intros i Hi. unfold m1; simpl. assert (Ei : Nat.ltb i d = true) by (apply Nat.ltb_lt; auto). rewrite Ei.
          destruct (Hb2 i Hi) as [H1 H2]. destruct (low_le q (bd m i) i) as [H3 H4]. split; [lra|].
          intros x [<-|Hx]; auto. specialize (H2 x Hx). lra.
      - exists (u ++ [q1]), q, v, m. rewrite El. repeat (split; auto). right. rewrite last_last.
        rewrite <- Hb1 by lia. auto. }
    destruct (nltb_spec (bd m d) (c q d)).
    + cbn [bind]. apply (Hcase true). discriminate.
    + cbn [bind]. apply (Hcase (nleb (bd m d) (c q1 d))). intros Hf. apply nleb_false in Hf. lra.
Qed.

(** ** The single-node case *)
Lemma assign_area_spec (vals : list R) : forall (m : @mem R) q i, exists ar',
  assign_area m q i vals = mkMem (nx m) (pv m) (ig m) ar' (vo m) (bd m) /\
  forall j x, x <> q \/ (i + length vals <= j)%nat -> ar' j x = ar m j x.
Proof.
  induction vals as [|w vals IH]; intros m q i; simpl.
  - exists (ar m). destruct m; auto.
  - destruct (IH (set_ar m i q w) q (Datatypes.S i)) as (ar' & E & Ha). exists ar'. split; [rewrite E; reflexivity|].
    intros j x Hx. rewrite Ha by (destruct Hx; [auto|right; lia]). simpl. unfold upd2.
    destruct (Nat.eqb_spec j i), (Nat.eqb_spec x q); simpl; auto. destruct Hx; [congruence|lia].
Qed.
Lemma map_res_ok {A B} (f : A -> res B) l : (forall x, In x l -> exists y, f x = Ok y) ->
  exists ys, map_res f l = Ok ys /\ length ys = length l.
Proof.
  induction l as [|x l IH]; intros Hf; simpl; [eauto|].
  destruct (Hf x (or_introl eq_refl)) as (y & ->). destruct IH as (ys & -> & Hl); [intros; apply Hf; right; auto|].
  simpl. exists (y :: ys). simpl. auto.
Qed.
Lemma singleton_spec (m : @mem R) q : (q < n)%nat -> exists ar',
  singleton_area pts d q m = Ok (mkMem (nx m) (pv m) (ig m) ar' (vo m) (bd m)) /\
  forall j x, x <> q \/ (d < j)%nat -> ar' j x = ar m j x.
Proof.
  intros Hq. unfold singleton_area.
  destruct (map_res_ok (fun i => do cx <- cg pts q i; Ok (nmul (ar (set_ar m 0 q none_) i q) (nopp cx))) (seq 0 d)) as (ys & -> & Hl).
  { intros i Hi. apply in_seq in Hi. rewrite (cg_c q i Hq) by lia. simpl. eauto. }
  cbn [bind]. destruct (assign_area_spec ys (set_ar m 0 q none_) q 1) as (ar' & -> & Ha).
  exists ar'. split; [reflexivity|]. intros j x Hx. rewrite seq_length in Hl. rewrite Ha by (destruct Hx; [auto|right; lia]).
  simpl. unfold upd2. destruct (Nat.eqb_spec j 0), (Nat.eqb_spec x q); simpl; auto. destruct Hx; [congruence|lia].
Qed.

(** ** Flags *)
Variable ig0 : nat -> nat.
Hypothesis Hig0 : forall x, In x S -> (d <= ig0 x)%nat -> exists y, In y S /\ sdom (ig0 x) y x.
Hypothesis Hig0z : forall x, In x S -> (ig0 x < d)%nat -> ig0 x = 0%nat.

Lemma flag_prefix u q v : sub S d = (u ++ [q]) ++ v -> (d <= ig0 q)%nat ->
  exists y, In y u /\ sdom (ig0 q) y q.
Proof.
  intros E Hi. assert (HqS : In q S) by (apply (sub_in S d q HS HdD); rewrite E, !in_app_iff; simpl; auto).
  destruct (Hig0 q HqS Hi) as (y & Hy & Hs). exists y. split; auto.
  assert (Hlt : (pos d y < pos d q)%nat) by (apply Hs; auto).
  apply (sub_in S d y HS HdD) in Hy. rewrite E in Hy. rewrite <- app_assoc in Hy.
  apply in_app_iff in Hy as [Hy|Hy]; auto. exfalso.
  pose proof (sub_sorted S d HdD) as Hsrt. rewrite E in Hsrt.
  destruct Hy as [<-|Hy]; [lia|].
  pose proof (sorted_app_lt _ _ _ q y Hsrt ltac:(rewrite in_app_iff; simpl; auto) Hy). lia.
Qed.

(** ** Loop invariant: [a] processed, [v] still removed *)
Variable me : @mem R.   (* memory at entry, for the frame *)
Record LI (a v : list nat) (m : @mem R) : Prop := {
  li_lk : lk m = Lk v;
  li_cv : forall i, (2 <= i)%nat -> (i < d)%nat -> CV i a m;
  li_d : forall x, In x a -> ar m d x = Hv d (pre d S x) /\ vo m d x = W d S x;
  li_fv : GP -> (d < D)%nat \/ v <> [] -> FV (d - 1) a m;
  li_ig : forall x, ~ In x a -> ig m x = ig0 x;
  li_sn : forall i, ar m i n = 0;
  li_fr : forall i, (d < i)%nat -> ar m i = ar me i /\ vo m i = vo me i /\ bd m i = bd me i
}.

(** specification of the call one level below *)
Definition Pre (e : nat) (A : list nat) (m : @mem R) : Prop :=
  nodes A /\ NoDup A /\ A <> [] /\ LinkOK e A (lk m) /\
  ((2 <= length A)%nat -> forall i, (2 <= i)%nat -> (i <= e)%nat -> CV i A m) /\
  ((2 <= e)%nat -> FV e A m) /\ (forall i, ar m i n = 0).
Definition Post (e : nat) (A : list nat) (m m' : @mem R) : Prop :=
  lk m' = lk m /\
  (forall i, (2 <= i)%nat -> (i <= e)%nat -> CV i A m') /\
  (GP -> (e < D)%nat -> FV e A m -> FV e A m') /\
  (forall x, ~ In x A -> ig m' x = ig m x) /\
  (forall i, ar m' i n = 0) /\
  (forall i, (e < i)%nat -> ar m' i = ar m i /\ vo m' i = vo m i /\ bd m' i = bd m i).

Variable recur : nat -> @mem R -> res (R * @mem R).
Hypothesis Hrec : forall A m, Pre (d - 1) A m ->
  exists m', recur (length A) m = Ok (Hv d A, m') /\ Post (d - 1) A m m'.

Lemma area_step_spec u q v (m : @mem R) : sub S d = (u ++ [q]) ++ v ->
  lk m = Lk v ->
  (u <> [] -> forall i, (2 <= i)%nat -> (i < d)%nat -> CV i (u ++ [q]) m) ->
  (forall x, In x u -> ar m d x = Hv d (pre d S x) /\ vo m d x = W d S x) ->
  vo m d q = W d S q ->
  (GP -> FV (d - 1) u m) ->
  (forall x, ~ In x u -> ig m x = ig0 x) ->
  (forall i, ar m i n = 0) ->
  (forall i, (d < i)%nat -> ar m i = ar me i /\ vo m i = vo me i /\ bd m i = bd me i) ->
  exists m', area_step recur d q (length (u ++ [q])) m = Ok m' /\ LI (u ++ [q]) v m'.
Proof.
  intros E Hlk Hcv Hd Hvq Hfv Hig Hsn Hfr.
  assert (Hnu : nodes (u ++ [q])) by (eapply xs_nodes; eauto).
  assert (Hq : (q < n)%nat) by (apply Hnu; rewrite in_app_iff; simpl; auto).
  pose proof (prefix_NoDup _ _ E) as Hnd.
  assert (Hqu : ~ In q u) by (apply NoDup_remove_2 in Hnd; rewrite app_nil_r in Hnd; auto).
  assert (HqS : In q S) by (apply (sub_in S d q HS HdD); rewrite E, !in_app_iff; simpl; auto).
  assert (Hprev : snd (Lk v) d q = last u n) by (apply (Lk_prev v u q v E)).
  assert (Hpv : forall m1 : @mem R, lk m1 = Lk v -> pv m1 d q = last u n).
  { intros m1 H1. change (pv m1) with (snd (lk m1)). rewrite H1. auto. }
  pose proof (pre_prefix S d u q v HS HdD E) as Hpre.
  assert (Hpu : forall ar1 : nat -> nat -> R, ar1 d n = 0 -> (forall x, In x u -> ar1 d x = Hv d (pre d S x)) ->
     ar1 d (last u n) = Hv d u).
  { intros ar1 H1 H2. destruct u as [|q1 u1] using rev_ind; [simpl; rewrite H1; auto|]. rewrite last_last.
    rewrite H2 by (rewrite in_app_iff; simpl; auto).
    assert (E1 : sub S d = (u1 ++ [q1]) ++ [q] ++ v) by (rewrite E, <- !app_assoc; auto).
    apply Hv_set. apply (pre_prefix S d u1 q1 _ HS HdD E1). }
  assert (Hqcons : forall k, Hv k (u ++ [q]) = Hv k (q :: u)).
  { intros k. apply Hv_set. intros y. rewrite in_app_iff. simpl. tauto. }
  unfold area_step. rewrite (Hig q Hqu).
  destruct (Nat.leb_spec d (ig0 q)) as [Hle|Hgt].
  - (* flagged: copy *)
    destruct (flag_prefix u q v E Hle) as (y & Hy & Hs).
    eexists. split; [reflexivity|]. rewrite (Hpv m Hlk).
    assert (Hval : ar m d (last u n) = Hv d (pre d S q)).
    { rewrite (Hpu (ar m)) by (auto; intros; apply Hd; auto). rewrite (Hv_set d _ _ Hpre), Hqcons.
      symmetry. apply (Hv_dom d u q y); auto. intros k Hk. apply Hs. lia. }
    constructor.
    + exact Hlk.
    + intros i Hi1 Hi2. assert (Hne : u <> []) by (destruct u; [destruct Hy|discriminate]).
      specialize (Hcv Hne i Hi1 Hi2). intros x Hx Hb. simpl in *. unfold upd2.
      assert (Ei : Nat.eqb i d = false) by (apply Nat.eqb_neq; lia). rewrite Ei. simpl. apply Hcv; auto.
    + intros x Hx. simpl. unfold upd2. rewrite Nat.eqb_refl. simpl.
      destruct (Nat.eqb_spec x q) as [->|Hne]; [split; auto|].
      apply Hd. apply in_app_iff in Hx as [|[<-|[]]]; auto. congruence.
    + intros Hgp _ x Hx Hf. simpl in *. apply in_app_iff in Hx as [Hx|[<-|[]]].
      * destruct (Hfv Hgp x Hx Hf) as (z & Hz & Hsz). exists z. rewrite in_app_iff. auto.
      * rewrite (Hig q Hqu) in *. exists y. rewrite in_app_iff. auto.
    + intros x Hx. simpl. apply Hig. rewrite in_app_iff in Hx. tauto.
    + intros i. simpl. unfold upd2. assert (Eq : Nat.eqb n q = false) by (apply Nat.eqb_neq; lia).
      rewrite Eq, andb_false_r. auto.
    + intros i Hi. simpl. destruct (Hfr i Hi) as (F1 & F2 & F3). repeat split; auto.
      rewrite <- F1. extensionality x. unfold upd2. assert (Ei : Nat.eqb i d = false) by (apply Nat.eqb_neq; lia). rewrite Ei; auto.
  - (* recursion *)
    assert (Hz : ig0 q = 0%nat) by auto.
    assert (Hfva : GP -> FV (d - 1) (u ++ [q]) m).
    { intros Hgp x Hx Hf. apply in_app_iff in Hx as [Hx|[<-|[]]].
      - destruct (Hfv Hgp x Hx Hf) as (y & Hy & Hs). exists y. rewrite in_app_iff. auto.
      - rewrite (Hig q Hqu), Hz in Hf. lia. }
    assert (HPre : Pre (d - 1) (u ++ [q]) m).
    { repeat match goal with |- _ /\ _ => split | |- Pre _ _ _ => unfold Pre end; auto.
      - destruct u; discriminate.
      - intros i Hi. rewrite Hlk. destruct (Lk_rep v (u ++ [q]) E) as [HR _]. apply HR. lia.
      - intros Hl i Hi1 Hi2. apply Hcv; auto; [|lia]. destruct u; [simpl in Hl; lia|discriminate].
      - intros Hd1. apply Hfva, HGP3. lia. }
    destruct (Hrec (u ++ [q]) m HPre) as (m1 & -> & (P1 & P2 & P3 & P4 & P5 & P6)).
    cbn [bind]. eexists. split; [reflexivity|].
    set (m2 := set_ar m1 d q (Hv d (u ++ [q]))).
    assert (Hlk2 : lk m2 = Lk v) by (rewrite <- Hlk, <- P1; reflexivity).
    rewrite (Hpv m2 Hlk2).
    assert (Far : forall x, x <> q -> ar m2 d x = ar m d x).
    { intros x Hx. simpl. unfold upd2. rewrite Nat.eqb_refl. apply Nat.eqb_neq in Hx. rewrite Hx. simpl.
      destruct (P6 d ltac:(lia)) as (F & _). rewrite F. auto. }
    assert (Hprevv : ar m2 d (last u n) = Hv d u).
    { apply Hpu; [rewrite Far by lia; auto|]. intros x Hx. rewrite Far by congruence. apply Hd; auto. }
    assert (Hgen : forall m3 : @mem R, lk m3 = lk m2 -> ar m3 = ar m2 -> vo m3 = vo m2 -> bd m3 = bd m2 ->
      (GP -> (d < D)%nat \/ v <> [] -> FV (d - 1) (u ++ [q]) m3) -> (forall x, ~ In x (u ++ [q]) -> ig m3 x = ig m2 x) -> LI (u ++ [q]) v m3).
    { intros m3 E1 E2 E3 E4 Hf3 Hi3. constructor; auto.
      - rewrite E1. auto.
      - intros i Hi1 Hi2 x Hx Hb. rewrite E2, E3. rewrite E4 in Hb. simpl in *. unfold upd2.
        assert (Ei : Nat.eqb i d = false) by (apply Nat.eqb_neq; lia). rewrite Ei. simpl.
        apply (P2 i); auto. lia.
      - intros x Hx. rewrite E2, E3. destruct (P6 d ltac:(lia)) as (F1 & F2 & F3). simpl. unfold upd2.
        rewrite Nat.eqb_refl. simpl. destruct (Nat.eqb_spec x q) as [->|Hne].
        + rewrite F2. split; auto. symmetry. apply Hv_set; auto.
        + rewrite F1, F2. apply Hd. apply in_app_iff in Hx as [|[<-|[]]]; auto. congruence.
      - intros x Hx. rewrite Hi3 by auto. simpl. rewrite P4 by auto. apply Hig. rewrite in_app_iff in Hx. tauto.
      - intros i. rewrite E2. simpl. unfold upd2. assert (Eq : Nat.eqb n q = false) by (apply Nat.eqb_neq; lia).
        rewrite Eq, andb_false_r. auto.
      - intros i Hi. rewrite E2, E3, E4. destruct (Hfr i Hi) as (F1 & F2 & F3).
        destruct (P6 i ltac:(lia)) as (F4 & F5 & F6). simpl. rewrite F5, F6. repeat split; auto.
        rewrite <- F1, <- F4. extensionality x. unfold upd2.
        assert (Ei : Nat.eqb i d = false) by (apply Nat.eqb_neq; lia). rewrite Ei; auto. }
    destruct (nleb_spec (Hv d (u ++ [q])) (ar m2 d (last u n))) as [Hno|Hgr].
    + apply Hgen; auto.
      * intros Hgp Hlast x Hx Hf. simpl in *. unfold upd1 in *. destruct (Nat.eqb_spec x q) as [->|Hne].
        -- rewrite Hprevv, Hqcons in Hno. unfold Hv in Hno. cbn [map] in Hno.
           apply hv_no_growth in Hno as (p & Hp & Hpk).
           ++ apply in_map_iff in Hp as (y & <- & Hy). exists y. split; [rewrite in_app_iff; auto|].
              assert (Hyn : (y < n)%nat) by (apply Hnu; rewrite in_app_iff; auto).
              assert (Hposd : (pos d y < pos d q)%nat).
              { pose proof (sub_sorted S d HdD) as Hs. rewrite E in Hs. apply sorted_prefix in Hs.
                apply (sorted_app_lt _ _ _ y q Hs Hy). simpl; auto. }
              assert (Hyq : forall k, (k <= d)%nat -> c y k <= c q k).
              { intros k Hk. destruct (Nat.eq_dec k d) as [->|]; [apply Hcoord; auto|apply Hpk; lia]. }
              split; auto. intros k Hk1 Hk2. destruct (Nat.eq_dec k d) as [->|Hkd]; auto.
              apply (HGP2 Hgp d q y HdD Hq Hyn ltac:(congruence) Hyq Hposd); auto; [|lia].
              intros HdD'. destruct v as [|z v']; [destruct Hlast; [lia|congruence]|].
              exists z. split; [apply (xs_nodes_v _ _ E); simpl; auto|]. rewrite <- HdD'.
              pose proof (sub_sorted S d HdD) as Hs. rewrite E in Hs.
              apply (sorted_app_lt _ _ _ q z Hs); [rewrite in_app_iff|]; simpl; auto.
           ++ intros k Hk. apply HGP1; auto. lia.
        -- apply (P3 Hgp ltac:(lia) (Hfva Hgp) x Hx Hf).
      * intros x Hx. simpl. unfold upd1. destruct (Nat.eqb_spec x q) as [->|]; auto.
        exfalso. apply Hx. rewrite in_app_iff; simpl; auto.
    + apply Hgen; auto. intros Hgp _. apply (P3 Hgp ltac:(lia) (Hfva Hgp)).
Qed.

(** ** Reinsertion loop *)
Lemma reinsertion_spec v : forall fuel u q (m : @mem R), (length v < fuel)%nat ->
  sub S d = (u ++ [q]) ++ v -> LI (u ++ [q]) v m ->
  exists u' q' m', reinsertion_loop pts recur fuel d (hd n v) q (length (u ++ [q])) (W d S q) m = Ok (q', W d S q', m') /\
    sub S d = u' ++ [q'] /\ LI (u' ++ [q']) [] m'.
Proof.
  induction v as [|p v IH]; intros fuel u q m Hf E HI; (destruct fuel as [|fuel]; [lia|]).
  - cbn [reinsertion_loop hd]. rewrite Nat.eqb_refl. exists u, q, m. rewrite app_nil_r in E. auto.
  - cbn [reinsertion_loop hd].
    assert (Hq : (q < n)%nat) by (apply (xs_nodes _ _ E); rewrite !in_app_iff; simpl; auto).
    assert (Hp : (p < n)%nat) by (apply (xs_nodes_v _ _ E); simpl; auto).
    assert (Hpn : Nat.eqb p n = false) by (apply Nat.eqb_neq; lia). rewrite Hpn.
    rewrite (cg_c p d Hp HdD), (cg_c q d Hq HdD). cbn [bind].
    assert (E' : sub S d = ((u ++ [q]) ++ [p]) ++ v) by (rewrite E, <- !app_assoc; auto).
    destruct (Lk_rep (p :: v) (u ++ [q]) E) as [_ Hcons].
    destruct HI as [Ilk Icv Id Ifv Iig Isn Ifr].
    rewrite (reinsert_spec pts c p d).
    2:{ intros i Hi. apply cg_c; auto; lia. }
    2:{ intros i Hi. simpl. change (pv m) with (snd (lk m)). rewrite Ilk. simpl.
        assert (El : Nat.ltb i d = true) by (apply Nat.ltb_lt; auto). rewrite El. simpl.
        destruct (Hcons i Hi) as (_ & _ & C3 & C4).
        destruct (Nat.eqb_spec p (fst (Lk v) i p)); [congruence|auto]. }
    cbn [bind].
    assert (Hlkm : lk (set_bd m d (c p d)) = Lk (p :: v)) by (rewrite <- Ilk; reflexivity).
    rewrite Hlkm. change (Lk (p :: v)) with (lrem d p (Lk v)). rewrite (lins_lrem d p (Lk v) Hcons).
    set (m2 := mkMem _ _ _ _ _ _).
    assert (Hnext : nx m2 d p = hd n v) by (unfold m2; simpl; apply (Lk_next v (u ++ [q]) p v E')).
    rewrite Hnext.
    assert (Hw : nadd (W d S q) (nmul (ar m d q) (nsub (c p d) (c q d))) = W d S p).
    { destruct (Id q) as [Ea _]; [rewrite in_app_iff; simpl; auto|]. rewrite Ea.
      rewrite (W_step S d u q p v HS HdD E'). numR. ring. }
    rewrite Hw. set (m3 := set_vo m2 d p (W d S p)).
    assert (Hpa : ~ In p (u ++ [q])).
    { pose proof (prefix_NoDup _ _ E') as Hnd. apply NoDup_remove_2 in Hnd. rewrite app_nil_r in Hnd. auto. }
    assert (Ha : exists m4, area_step recur d p (length ((u ++ [q]) ++ [p])) m3 = Ok m4 /\ LI ((u ++ [q]) ++ [p]) v m4).
    { apply area_step_spec; auto.
      - unfold m3, m2, lk. simpl. destruct (Lk v); auto.
      - intros _ i Hi1 Hi2. apply (CV_change i (u ++ [q]) _ m m3); auto.
        + simpl. extensionality x. unfold upd2. assert (Ei : Nat.eqb i d = false) by (apply Nat.eqb_neq; lia). rewrite Ei; auto.
        + intros x Hx Hb. simpl in Hb. assert (El : Nat.ltb i d = true) by (apply Nat.ltb_lt; auto). rewrite El in Hb.
          unfold upd1 in Hb. assert (Ei : Nat.eqb i d = false) by (apply Nat.eqb_neq; lia). rewrite Ei in Hb.
          destruct (low_le p (bd m i) i) as [B1 B2].
          apply in_app_iff in Hx as [Hx|[<-|[]]]; [|lra]. split; auto. split; [lra|].
          intros y Hy. split; intros Hin; [apply in_app_iff; auto|]. apply in_app_iff in Hin as [|[<-|[]]]; auto.
          exfalso. assert (Hxn : (x < n)%nat) by (apply (xs_nodes _ _ E); auto).
          assert ((pos i x < pos i p)%nat) by (apply coord_pos; auto; [lia|lra]). lia.
      - intros x Hx. unfold m3; simpl. unfold upd2. rewrite Nat.eqb_refl. simpl.
        destruct (Nat.eqb_spec x p); [congruence|]. apply Id; auto.
      - unfold m3; simpl. unfold upd2. rewrite !Nat.eqb_refl. auto.
      - intros Hgp. apply (Ifv Hgp). right. discriminate.
      - intros i Hi. unfold m3; simpl. destruct (Ifr i Hi) as (F1 & F2 & F3). repeat split; auto.
        + rewrite <- F2. extensionality x. unfold upd2. assert (Ei : Nat.eqb i d = false) by (apply Nat.eqb_neq; lia). rewrite Ei; auto.
        + assert (El : Nat.ltb i d = false) by (apply Nat.ltb_ge; lia). rewrite El. unfold upd1.
          assert (Ei : Nat.eqb i d = false) by (apply Nat.eqb_neq; lia). rewrite Ei; auto. }
    destruct Ha as (m4 & Ha & HI4).
    rewrite app_length in Ha at 1. simpl length in Ha. rewrite Nat.add_1_r in Ha. rewrite Ha. cbn [bind].
    simpl in Hf.
    destruct (IH fuel (u ++ [q]) p m4 ltac:(lia) E' HI4) as (u' & q' & m' & Hr & E2 & HI').
    rewrite app_length in Hr at 1. simpl length in Hr. rewrite Nat.add_1_r in Hr. rewrite Hr. eauto 10.
Qed.
End Level.

(** * The recursion *)
Lemma hv_rec_spec fuel d : (1 <= d)%nat -> (d <= D)%nat -> (n < fuel)%nat ->
  forall S (m : @mem R), Pre d S m ->
  exists m', hv_recursive pts fuel d (length S) m = Ok (Hv (d + 1) S, m') /\ Post d S m m'.
Proof.
  induction d as [|d IH]; [lia|]. intros _ HD Hfuel S m HP.
  destruct HP as (HS & Hnd & Hne & HL & Hcv & Hfv & Hsn).
  assert (HlenS : (length S <= n)%nat).
  { replace n with (length (seq 0 n)) by apply seq_length. apply NoDup_incl_length; auto.
    intros x Hx. apply in_seq. specialize (HS x Hx). lia. }
  destruct (Nat.eq_dec d 0) as [->|Hd0].
  - exists m. split; [apply (level1 S m fuel); auto; [lia|apply (HL 1%nat); auto]|].
    unfold Post. split; [auto|]. split; [intros; lia|]. repeat split; auto.
  - set (e := Datatypes.S d) in *. assert (He2 : (2 <= e)%nat) by lia.
    change (hv_recursive pts fuel e (length S) m) with (hv_recursive pts fuel (Datatypes.S d) (length S) m).
    cbn [hv_recursive].
    destruct (Nat.eqb_spec (length S) 0) as [E0|_]; [destruct S; [congruence|discriminate]|].
    destruct (Nat.eqb_spec d 0) as [E0|_]; [lia|]. fold e.
    pose proof (sub_length S e HS Hnd HD) as Hxl.
    (* reset *)
    assert (Hpv0 : pv m e n = last (sub S e) n) by (apply (Rep_pv0 (nx m e)); apply (HL e); auto).
    assert (Hreset := reset_spec e He2 HD S HS (lk m) HL m eq_refl (sub S e) [] fuel).
    rewrite app_nil_r in Hreset. specialize (Hreset eq_refl ltac:(lia) (ig m)).
    set (ig0 := fun x => if inb (sub S e) x && Nat.ltb (ig m x) e then 0%nat else ig m x) in Hreset.
    replace (mkMem (nx m) (pv m) (ig m) (ar m) (vo m) (bd m)) with m in Hreset by (destruct m; auto).
    rewrite Hpv0, Hreset. cbn [bind]. set (m0 := mkMem (nx m) (pv m) ig0 (ar m) (vo m) (bd m)).
    assert (Hig0 : forall x, In x S -> (e <= ig0 x)%nat -> exists y, In y S /\ sdom (ig0 x) y x).
    { intros x Hx. unfold ig0. destruct (inb (sub S e) x && Nat.ltb (ig m x) e); [lia|]. apply (Hfv He2); auto. }
    assert (Hig0z : forall x, In x S -> (ig0 x < e)%nat -> ig0 x = 0%nat).
    { intros x Hx. unfold ig0. assert (Ei : inb (sub S e) x = true) by (apply inb_spec, sub_in; auto). rewrite Ei. simpl.
      destruct (Nat.ltb_spec (ig m x) e); auto. lia. }
    (* removal *)
    destruct (exists_last (l := sub S e)) as (u0 & q0 & Eu0).
    { intros E0. rewrite E0 in Hxl. simpl in Hxl. destruct S; [congruence|discriminate]. }
    assert (Eu0' : sub S e = (u0 ++ [q0]) ++ []) by (rewrite app_nil_r; auto).
    assert (Hpv1 : pv m0 e n = q0) by (unfold m0; simpl; rewrite Hpv0, Eu0; apply last_last).
    rewrite Hpv1.
    destruct (removal_spec e He2 HD S HS (lk m) HL m0 u0 q0 [] m0 Eu0') as (u & q & v & m1 & Hrem & E & Hlk1 & Hig1 & Har1 & Hvo1 & Hb1 & Hb2 & Hstop); auto.
    { intros i Hi. split; [lra|intros x []]. }
    simpl hd in Hrem. replace (length (u0 ++ [q0])) with (length S) in Hrem by (rewrite <- Eu0; auto).
    rewrite Hrem. cbn [bind].
    assert (Hnu : nodes (u ++ [q])) by (eapply xs_nodes; eauto).
    assert (Hq : (q < n)%nat) by (apply Hnu; rewrite in_app_iff; simpl; auto).
    rewrite (cg_c q e Hq HD). cbn [bind].
    assert (HpvL : forall mm : @mem R, lk mm = Lk e (lk m) v -> pv mm e q = last u n).
    { intros mm Hmm. change (pv mm) with (snd (lk mm)). rewrite Hmm. eapply Lk_prev; eauto. }
    rewrite (HpvL m1 Hlk1).
    assert (Hpre : forall x, In x (u ++ [q]) -> In x S).
    { intros x Hx. apply (sub_in S e x HS HD). rewrite E, in_app_iff. auto. }
    assert (Hsz : u <> [] -> (2 <= length S)%nat).
    { intros Hu. rewrite <- Hxl, E, !app_length. destruct u; [congruence|simpl; lia]. }
    (* caches of level e along u *)
    assert (Hdu : forall x, In x u -> ar m1 e x = Hv e (pre e S x) /\ vo m1 e x = W e S x).
    { intros x Hx. rewrite Har1, Hvo1. simpl. destruct Hstop as [->|Hlt]; [destruct Hx|].
      assert (Hune : u <> []) by (destruct u; [destruct Hx|discriminate]).
      apply (Hcv (Hsz Hune) e He2 (le_n e)); [apply Hpre; rewrite in_app_iff; auto|].
      destruct (exists_last Hune) as (u1 & q1 & Eu). rewrite Eu in Hx, Hlt. rewrite last_last in Hlt. simpl in Hlt.
      apply in_app_iff in Hx as [Hx|[<-|[]]]; auto.
      assert (c x e <= c q1 e); [|lra]. apply Hcoord; auto; [apply Hnu; rewrite Eu, !in_app_iff; auto|apply Hnu; rewrite Eu, !in_app_iff; simpl; auto|].
      pose proof (sub_sorted S e HD) as Hs. rewrite E, Eu in Hs. apply sorted_prefix in Hs. apply sorted_prefix in Hs.
      apply (sorted_app_lt _ _ _ x q1 Hs Hx). simpl; auto. }
    (* hvol and the memory before the area step *)
    assert (Hhm : exists m2,
      (if Nat.ltb 1 (length (u ++ [q]))
       then do cqp <- cg pts (last u n) e; Ok (nadd (vo m1 e (last u n)) (nmul (ar m1 e (last u n)) (nsub (c q e) cqp)), m1)
       else do m2 <- singleton_area pts e q m1; Ok (nzero, m2)) = Ok (W e S q, m2) /\
      lk m2 = lk m1 /\ ig m2 = ig m1 /\ vo m2 = vo m1 /\ bd m2 = bd m1 /\
      (forall j x, x <> q \/ (e < j)%nat -> ar m2 j x = ar m1 j x) /\
      (u <> [] -> ar m2 = ar m1)).
    { destruct u as [|q1 u1] using rev_ind.
      - simpl. destruct (singleton_spec e He2 HD m1 q Hq) as (ar' & -> & Ha). cbn [bind].
        eexists. split; [rewrite (W_first S e q v HS HD E); reflexivity|]. simpl. repeat (split; auto). congruence.
      - clear IHu1. rewrite last_last.
        assert (Hq1 : (q1 < n)%nat) by (apply Hnu; rewrite !in_app_iff; simpl; auto).
        assert (El : Nat.ltb 1 (length ((u1 ++ [q1]) ++ [q])) = true) by (apply Nat.ltb_lt; rewrite !app_length; simpl; lia).
        rewrite El, (cg_c q1 e Hq1 HD). cbn [bind]. exists m1. split; [|repeat (split; auto)].
        do 2 f_equal. destruct (Hdu q1) as [E1 E2]; [rewrite in_app_iff; simpl; auto|]. rewrite E1, E2.
        rewrite (W_step S e u1 q1 q v HS HD E). numR. ring. }
    destruct Hhm as (m2 & -> & Hlk2 & Hig2 & Hvo2 & Hbd2 & Har2 & Har2').
    cbn [bind]. set (m3 := set_vo m2 e q (W e S q)).
    set (recur := hv_recursive pts fuel d).
    assert (Hrec : forall A mm, Pre (e - 1) A mm -> exists m', recur (length A) mm = Ok (Hv e A, m') /\ Post (e - 1) A mm m').
    { intros A mm HPA. replace (e - 1)%nat with d in * by lia.
      destruct (IH ltac:(lia) ltac:(lia) Hfuel A mm HPA) as (m' & H1 & H2). exists m'. split; auto.
      replace e with (d + 1)%nat by lia. exact H1. }
    assert (Hqu : ~ In q u).
    { pose proof (prefix_NoDup e HD S _ _ E) as Hnd'. apply NoDup_remove_2 in Hnd'. rewrite app_nil_r in Hnd'. auto. }
    assert (Hsn3 : forall i, ar m3 i n = 0).
    { intros i. unfold m3; simpl. rewrite Har2 by (left; lia). rewrite Har1. simpl. auto. }
    assert (Ha : exists m4, area_step recur e q (length (u ++ [q])) m3 = Ok m4 /\ LI e S (lk m) ig0 m (u ++ [q]) v m4).
    { apply (area_step_spec e He2 HD S HS (lk m) HL ig0 Hig0 Hig0z m recur Hrec); auto.
      - rewrite <- Hlk1, <- Hlk2. reflexivity.
      - intros Hu i Hi1 Hi2. apply (CV_change i S _ m m3).
        + unfold m3; simpl. rewrite (Har2' Hu), Har1. reflexivity.
        + unfold m3; simpl. extensionality x. unfold upd2. assert (Ei : Nat.eqb i e = false) by (apply Nat.eqb_neq; lia). rewrite Ei. simpl.
          rewrite Hvo2, Hvo1. reflexivity.
        + intros x Hx Hb. unfold m3 in Hb; simpl in Hb. rewrite Hbd2 in Hb. destruct (Hb2 i Hi2) as [B1 B2]. simpl in B1.
          split; auto. split; [lra|]. intros y Hy. split; auto. intros HyS.
          apply (sub_in S e y HS HD) in HyS. rewrite E in HyS. apply in_app_iff in HyS as [|Hyv]; auto. exfalso.
          assert (Hyn : (y < n)%nat) by (eapply (xs_nodes_v e HD S HS); eauto).
          specialize (B2 y Hyv). assert ((pos i x < pos i y)%nat) by (apply coord_pos; auto; [lia|lra]). lia.
        + apply Hcv; auto. lia.
      - intros x Hx. unfold m3; simpl. unfold upd2. rewrite Nat.eqb_refl. simpl. destruct (Nat.eqb_spec x q); [congruence|].
        rewrite Hvo2, Har2 by auto. auto.
      - unfold m3; simpl. unfold upd2. rewrite !Nat.eqb_refl. auto.
      - intros Hgp x Hx Hf. unfold m3 in *; simpl in *. rewrite Hig2, Hig1 in *. simpl in *.
        assert (HxS : In x S) by (apply Hpre; rewrite in_app_iff; auto).
        destruct (le_lt_dec e (ig0 x)) as [Hge|Hlt]; [|rewrite Hig0z in Hf by auto; lia].
        apply in_split in Hx as (a & b & Eab).
        assert (E3 : sub S e = (a ++ [x]) ++ (b ++ [q]) ++ v) by (rewrite E, Eab, <- !app_assoc; auto).
        destruct (flag_prefix e He2 HD S HS ig0 Hig0 a x _ E3 Hge) as (y & Hy & Hs). exists y. split; auto.
        rewrite Eab, in_app_iff. auto.
      - intros x Hx. unfold m3; simpl. rewrite Hig2, Hig1. reflexivity.
      - intros i Hi. unfold m3; simpl. rewrite Hbd2, Hb1 by lia. split; [|split; auto].
        + extensionality x. rewrite Har2 by auto. rewrite Har1. auto.
        + extensionality x. unfold upd2. assert (Ei : Nat.eqb i e = false) by (apply Nat.eqb_neq; lia). rewrite Ei. simpl.
          rewrite Hvo2, Hvo1. reflexivity. }
    destruct Ha as (m4 & Ha & HI4). fold recur. rewrite Ha. cbn [bind].
    assert (Hlv : (length v < fuel)%nat).
    { assert (length (sub S e) = length ((u ++ [q]) ++ v)) by congruence. rewrite !app_length in *. simpl in *. lia. }
    destruct (reinsertion_spec e He2 HD S HS (lk m) HL ig0 Hig0 Hig0z m recur Hrec v fuel u q m4 Hlv E HI4)
      as (u' & q' & m5 & Hr & E5 & HI5).
    rewrite Hr. cbn [bind]. destruct HI5 as [Jlk Jcv Jd Jfv Jig Jsn Jfr].
    assert (E5' : sub S e = (u' ++ [q']) ++ []) by (rewrite app_nil_r; auto).
    assert (Hq' : (q' < n)%nat) by (apply (xs_nodes e HD S HS _ _ E5'); rewrite in_app_iff; simpl; auto).
    rewrite (cg_c q' e Hq' HD). cbn [bind].
    assert (Hset : forall y, In y (u' ++ [q']) <-> In y S) by (intros y; rewrite <- E5; apply sub_in; auto).
    exists m5. split.
    + do 2 f_equal. destruct (Jd q') as [Ea _]; [rewrite in_app_iff; simpl; auto|]. rewrite Ea.
      rewrite <- (W_last S e u' q' HS HD E5). numR. reflexivity.
    + unfold Post. split; [exact Jlk|]. split; [|split; [|split; [|split]]].
      * intros i Hi1 Hi2. destruct (Nat.eq_dec i e) as [->|Hie].
        -- intros x Hx _. apply Jd. apply Hset; auto.
        -- apply (CV_change i (u' ++ [q']) S m5 m5); auto; [|apply Jcv; auto; lia].
           intros x Hx Hb. split; [apply Hset; auto|]. split; auto.
      * intros Hgp HeD _ x Hx Hf. apply Hset in Hx. destruct (Jfv Hgp (or_introl HeD) x Hx ltac:(lia)) as (y & Hy & Hs).
        exists y. split; auto. apply Hset; auto.
      * intros x Hx. rewrite Jig by (rewrite Hset; auto). unfold ig0.
        assert (Ei : inb (sub S e) x = false) by (apply inb_false; rewrite sub_in; auto). rewrite Ei. auto.
      * auto.
      * auto.
Qed.
End Sweep.
