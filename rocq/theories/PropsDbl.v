(** C167: the non-dominated sorting on IEEE doubles, infinities and signed zeros included. *)
From Coq Require Import ZArith Reals List Arith Lia Bool Sorting.Sorted.
From Flocq Require Import IEEE754.BinarySingleNaN.
From Verif Require Import Num Exn NDSModel NDSSpec NDSTop NDSHom UtilsModel DblModel DblSpec DblNDS PropsNDS.
Import ListNotations.
Open Scope nat_scope.

Theorem C167_dominate : forall (a b : list double),
  nan_free [a; b] ->
  (length a = length b -> exists r, is_dominate a b = Ok r /\ (r = true <-> ddominates a b)) /\
  (length a <> length b -> is_dominate a b = Exn AssertionError).
Proof.
  intros a b HP. split; intros El.
  - destruct (proj1 (C14_is_dominate_total (map dval a) (map dval b))) as [r Hr]; [rewrite !map_length; auto|].
    exists r. split; [rewrite d_dom by auto; exact Hr|]. rewrite dom_val by auto. exact (C14_is_dominate_iff _ _ _ Hr).
  - rewrite d_dom by auto. apply C14_is_dominate_total. rewrite !map_length. auto.
Qed.
Print Assumptions C167_dominate.

Theorem C167_fronts : forall (P : list (list double)) m,
  P <> [] -> 2 <= m -> (forall p, In p P -> length p = m) -> nan_free P ->
  exists d, non_domin_sort_idx P = Ok d /\
    (exists q, map fst d = seq 0 q) /\
    (forall r l, In (r, l) d -> l <> [] /\ StronglySorted lt l /\
       forall i, In i l <-> dpareto_front P r i) /\
    (forall i, i < length P -> exists r l, In (r, l) d /\ In i l).
Proof.
  intros P m HP Hm Hlen Hn. rewrite d_sort_idx by auto.
  assert (HP' : map (map dval) P <> []) by (destruct P; [congruence|discriminate]).
  assert (Hlen' : forall p, In p (map (map dval) P) -> length p = m).
  { intros p Hp. apply in_map_iff in Hp as (p' & <- & Hp). rewrite map_length. auto. }
  destruct (nds_idx_correct (map (map dval) P) m HP' Hm Hlen') as (d & E & H1 & H2 & H3 & _).
  exists d. split; [exact E|]. split; [exact H1|]. split.
  - intros r l Hrl. destruct (H2 r l Hrl) as (A & B & C). split; [exact B|]. split; [exact A|].
    intros i. rewrite front_val by auto. apply C.
  - intros i Hi. apply H3. rewrite map_length. exact Hi.
Qed.
Print Assumptions C167_fronts.

Theorem C167_decisions : forall (P : list (list double)) m,
  P <> [] -> 2 <= m -> (forall p, In p P -> length p = m) -> nan_free P ->
  exists d, non_domin_sort_dec P = Ok d /\
    NoDup (map fst d) /\
    (forall r, In r (map fst d) <-> exists i, dpareto_front P r i) /\
    (forall r l, In (r, l) d -> NoDup l /\ forall i, In i l <-> dpareto_front P r i).
Proof.
  intros P m HP Hm Hlen Hn. rewrite d_sort_dec by auto.
  destruct (C12_decisions_per_front (map (map dval) P) m) as (d & E & H1 & H2 & H3); auto.
  - destruct P; [congruence|discriminate].
  - intros p Hp. apply in_map_iff in Hp as (p' & <- & Hp). rewrite map_length. auto.
  - exists d. split; [exact E|]. split; [exact H1|]. split.
    + intros r. rewrite H2. split; intros [i Hi]; exists i; apply front_val; auto.
    + intros r l Hrl. destruct (H3 r l Hrl) as [A B]. split; [exact A|].
      intros i. rewrite front_val by auto. apply B.
Qed.
Print Assumptions C167_decisions.

(** [get_non_dominated] in its default (weak) form *)
Theorem C167_get_non_dominated : forall isclose (M : list (list double)) m,
  (forall p, In p M -> length p = m) -> nan_free M ->
  match get_non_dominated_idx isclose true M with
  | Ok ix => ix <> [] /\ StronglySorted lt ix /\
      forall i, In i ix <-> i < length M /\
        (forall j, j < length M -> j <> i -> ~ dweakly_dominates (drow M j) (drow M i))
  | Exn e => e = IndexError /\
      ~ exists i, i < length M /\
        (forall j, j < length M -> j <> i -> ~ dweakly_dominates (drow M j) (drow M i))
  end.
Proof.
  intros ic M m Hlen Hn. rewrite (d_gnd M ic (fun _ _ => false)) by auto.
  assert (Hlen' : forall p, In p (map (map dval) M) -> length p = m).
  { intros p Hp. apply in_map_iff in Hp as (p' & <- & Hp). rewrite map_length. auto. }
  pose proof (C15_get_non_dominated_iff (fun _ _ => false) (map (map dval) M) m Hlen') as H.
  assert (Hw : forall i, (i < length (map (map dval) M) /\
      (forall j, j < length (map (map dval) M) -> j <> i ->
        ~ weakly_dominates (row (map (map dval) M) j) (row (map (map dval) M) i))) <->
      (i < length M /\ (forall j, j < length M -> j <> i -> ~ dweakly_dominates (drow M j) (drow M i)))).
  { intros i. rewrite map_length. split; intros [Hi Hj]; (split; [exact Hi|]); intros j Hj1 Hj2; specialize (Hj j Hj1 Hj2).
    - rewrite wdom_val by (apply nan_free_rows; auto). rewrite !row_val in Hj. exact Hj.
    - rewrite wdom_val in Hj by (apply nan_free_rows; auto). rewrite !row_val. exact Hj. }
  destruct (get_non_dominated_idx _ true _) as [ix|e].
  - destruct H as (A & B & C). split; [exact A|]. split; [exact B|]. intros i. rewrite C. apply Hw.
  - destruct H as (A & B). split; [exact A|]. intros (i & Hi). apply B. exists i. apply Hw. exact Hi.
Qed.
Print Assumptions C167_get_non_dominated.

(** One double with an infinite coordinate, two that differ in the sign of a zero (a tie for
    the IEEE comparison), and a subnormal number. *)
Definition ex_front : list (list double) :=
  [[B754_zero false; dbl 1 0]; [B754_zero true; dbl 1 0];
   [B754_infinity true; B754_infinity false]; [dbl 1 (-1074); dbl 1 0]; [dbl 1 0; dbl 3 (-1)]].
Example C167_example : ex_front <> [] /\ 2 <= 2 /\ (forall p, In p ex_front -> length p = 2) /\
  nan_free ex_front /\
  non_domin_sort_idx ex_front = Ok [(0, [0; 1; 2]); (1, [3]); (2, [4])].
Proof.
  split; [discriminate|]. split; [lia|]. split.
  { intros p Hp. repeat destruct Hp as [<-|Hp]; auto. destruct Hp. }
  split.
  { intros p x Hp Hx. repeat destruct Hp as [<-|Hp]; try destruct Hp;
      repeat destruct Hx as [<-|Hx]; try destruct Hx; reflexivity. }
  vm_compute. reflexivity.
Qed.

(** With NaN the claims fail: [is_dominate] skips the coordinate, reports dominance where the
    IEEE relation does not hold, and is cyclic. *)
Definition nan : double := B754_nan.
Theorem C167_nan_refuted : exists a b c : list double,
  is_dominate a b = Ok true /\ is_dominate b c = Ok true /\ is_dominate c a = Ok true /\
  ~ ddominates a b /\ ~ ddominates b c /\ ~ ddominates c a.
Proof.
  exists [dbl 0 0; nan; dbl 1 0], [dbl 1 0; dbl 0 0; nan], [nan; dbl 1 0; dbl 0 0].
  split; [vm_compute; reflexivity|]. split; [vm_compute; reflexivity|]. split; [vm_compute; reflexivity|].
  split; [|split]; intros (_ & H & _).
  - specialize (H 1 ltac:(simpl; lia)). vm_compute in H. discriminate.
  - specialize (H 0 ltac:(simpl; lia)). vm_compute in H. discriminate.
  - specialize (H 0 ltac:(simpl; lia)). vm_compute in H. discriminate.
Qed.
Print Assumptions C167_nan_refuted.

(** What [is_dominate] decides when NaN is allowed: no coordinate is greater in the IEEE
    sense and one is smaller. *)
Theorem C167_dominate_nan : forall (a b : list double), length a = length b ->
  exists r, is_dominate a b = Ok r /\
   (r = true <-> (forall k, k < length a -> Bltb (nth k b d0) (nth k a d0) = false) /\
                 (exists k, k < length a /\ Bltb (nth k a d0) (nth k b d0) = true)).
Proof.
  intros a b El. unfold is_dominate. rewrite El, Nat.eqb_refl. exists (is_dominate_loop a b false).
  split; [reflexivity|].
  assert (As : forall x y : double, Bltb x y = true -> Bltb y x = false).
  { intros x y Hxy. destruct (isnan x) eqn:Nx; [destruct x; discriminate|].
    destruct (isnan y) eqn:Ny; [destruct y as [|[|]| |[|]]; try discriminate; destruct x as [|[|]| |[|]]; discriminate|].
    rewrite dval_ltb in * by auto. destruct (Rltb_spec (dval x) (dval y)); [|discriminate].
    destruct (Rltb_spec (dval y) (dval x)); [exfalso; eapply Rlt_asym; eauto|reflexivity]. }
  assert (G : forall (a b : list double) one, length a = length b ->
    (is_dominate_loop a b one = true <->
     (forall k, k < length a -> Bltb (nth k b d0) (nth k a d0) = false) /\
     (one = true \/ exists k, k < length a /\ Bltb (nth k a d0) (nth k b d0) = true))).
  { clear -As. intros a. induction a as [|x a IH]; intros [|y b] one El; try discriminate; simpl.
    - split; [intros ->; split; [intros; lia|auto]|intros [_ [H|(k & Hk & _)]]; [auto|lia]].
    - injection El as El.
      change (nltb x y) with (Bltb x y). change (nltb y x) with (Bltb y x).
      destruct (Bltb x y) eqn:E1.
      + rewrite IH by auto. split.
        * intros [H1 H2]. split.
          -- intros [|k] Hk; [auto|apply H1; lia].
          -- right. exists 0. split; [lia|auto].
        * intros [H1 H2]. split; [intros k Hk; exact (H1 (S k) ltac:(lia))|auto].
      + destruct (Bltb y x) eqn:E2.
        * split; [discriminate|]. intros [H1 _]. specialize (H1 0 ltac:(lia)). simpl in H1. congruence.
        * rewrite IH by auto. split.
          -- intros [H1 H2]. split.
             ++ intros [|k] Hk; [auto|apply H1; lia].
             ++ destruct H2 as [H2|(k & Hk & Hl)]; [auto|right; exists (S k); split; [lia|auto]].
          -- intros [H1 H2]. split; [intros k Hk; exact (H1 (S k) ltac:(lia))|].
             destruct H2 as [H2|([|k] & Hk & Hl)]; [auto|simpl in Hl; congruence|right; exists k; split; [lia|auto]]. }
  rewrite (G a b false El), El. split; intros [H1 H2]; (split; [exact H1|]).
  - destruct H2 as [H2|H2]; [discriminate|exact H2].
  - auto.
Qed.
Print Assumptions C167_dominate_nan.
