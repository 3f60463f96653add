(** Property theorems: where the front of ZDT3 is, and how far the reported one is from it. *)
From Coq Require Import Reals Lra Lia.
From Coq Require Import List Arith Bool.
From Verif Require Import BenchModel BenchSpec BenchBase BenchZDT ZregModel ZregProof ZregMin ZwaveBase ZwaveNum ZwaveProof PropsFronts PropsZreg.
Import ListNotations.
Open Scope R_scope.

(** five intervals of the first objective in which every value belongs to the front … *)
Definition inside : list (R * R) := [(0, 0.0830015249); (0.18222875, 0.2577623534); (0.4093136848, 0.4538820941); (0.6183968044, 0.6525116938); (0.8233318083, 0.8518328554)].
(** … and five in which all the values of the front are *)
Definition around : list (R * R) := [(0, 0.0830015449); (0.18222872, 0.2577623734); (0.4093136748, 0.4538821141); (0.6183967944, 0.6525117138); (0.8233317983, 0.8518328754)].

(** * C183 *)
Theorem C183_inside : forall n lo hi t, (2 <= n)%nat -> In (lo, hi) inside -> lo <= t <= hi ->
  optimal (zdt_box n) zdt3 [t; 1 - sqrt (Rmax t eps) - t * sin (10 * PI * t)].
Proof.
  intros n lo hi t Hn Hin Ht. apply zdt3_optimal; auto. exists t. split; [|reflexivity].
  destruct Hin as [E|[E|[E|[E|[E|[]]]]]]; injection E as <- <-; [apply (inner_good 0 (hh - dd))|apply (inner_good 0.18222875 (h1 - dd))|
    apply (inner_good (0.4093136748 + dd) (h2 - dd))|apply (inner_good (0.6183967944 + dd) (h3 - dd))|apply (inner_good (0.8233317983 + dd) (h4 - dd))];
    unfold inner; try (unfold dd, hh, h1, h2, h3, h4; lra); simpl; auto 6.
Qed.
Print Assumptions C183_inside.

Theorem C183_around : forall n u, (2 <= n)%nat -> optimal (zdt_box n) zdt3 u ->
  exists t lo hi, u = [t; 1 - sqrt (Rmax t eps) - t * sin (10 * PI * t)] /\ In (lo, hi) around /\ lo <= t <= hi.
Proof.
  intros n u Hn Ho. apply zdt3_optimal in Ho; auto. destruct Ho as (t & Hd & ->). destruct (outer_bad t Hd) as (lo & hi & Hin & Ht).
  assert (W : exists lo' hi', In (lo', hi') around /\ lo' <= t <= hi').
  { unfold dd, hh, h1, h2, h3, h4, outer in *. destruct Hin as [E|[E|[E|[E|[E|[]]]]]]; injection E as <- <-.
    - exists 0, 0.0830015449. split; [simpl; auto|]. unfold hh, dd in Ht. lra.
    - exists 0.18222872, 0.2577623734. split; [simpl; auto|]. unfold h1, dd in Ht. lra.
    - exists 0.4093136748, 0.4538821141. split; [simpl; auto|]. unfold h2, dd in Ht. lra.
    - exists 0.6183967944, 0.6525117138. split; [simpl; auto|]. unfold h3, dd in Ht. lra.
    - exists 0.8233317983, 0.8518328754. split; [simpl; auto 6|]. unfold h4, dd in Ht. lra. }
  destruct W as (lo' & hi' & H1 & H2). exists t, lo', hi'. auto.
Qed.
Print Assumptions C183_around.

(** every reported first objective is within 1e-8 of one of the front *)
Theorem C183_reported : forall n N v, (2 <= n)%nat -> In v (zdt3_front N) ->
  exists u, optimal (zdt_box n) zdt3 u /\ Rabs (nth 0 v 0 - nth 0 u 0) <= 1 / 100000000.
Proof.
  intros n N v Hn Hv. apply C166_zdt3 in Hv. destruct Hv as (lo & hi & i & Hr & Hi & ->). cbn [nth].
  assert (U : 0 <= Node (Nat.max 1 (N / 5)) i <= 1).
  { apply (linspace_unit (Nat.max 1 (N / 5))). change (linspace01 (Nat.max 1 (N / 5))) with (map (Node (Nat.max 1 (N / 5))) (seq 0 (Nat.max 1 (N / 5)))).
    apply in_map, in_seq. lia. }
  set (w := Node (Nat.max 1 (N / 5)) i) in *.
  assert (K : forall a b, In (a, b) inside -> a <= b -> a - 1 / 100000000 <= lo -> lo <= hi -> hi <= b + 1 / 100000000 ->
    exists u, optimal (zdt_box n) zdt3 u /\ Rabs (lo + w * (hi - lo) - nth 0 u 0) <= 1 / 100000000).
  { intros a b Hin Hab H1 H2 H3. set (t := lo + w * (hi - lo)). assert (T : lo <= t <= hi) by (unfold t; nra).
    set (c := Rmax a (Rmin t b)). exists [c; 1 - sqrt (Rmax c eps) - c * sin (10 * PI * c)].
    assert (C : a <= c <= b /\ - (1 / 100000000) <= t - c <= 1 / 100000000).
    { unfold c. destruct (Rle_dec t b); [rewrite (Rmin_left t b) by lra|rewrite (Rmin_right t b) by lra];
        [destruct (Rle_dec t a); [rewrite Rmax_left by lra|rewrite Rmax_right by lra]|rewrite Rmax_right by lra]; lra. }
    split; [apply (C183_inside n a b); auto; lra|]. cbn [nth]. apply Rabs_le. lra. }
  destruct Hr as [E|[E|[E|[E|[E|[]]]]]]; injection E as <- <-.
  - apply (K 0 0.0830015249); [simpl; auto|lra..].
  - apply (K 0.18222875 0.2577623534); [simpl; auto|lra..].
  - apply (K 0.4093136848 0.4538820941); [simpl; auto|lra..].
  - apply (K 0.6183968044 0.6525116938); [simpl; auto|lra..].
  - apply (K 0.8233318083 0.8518328554); [simpl; auto 6|lra..].
Qed.
Print Assumptions C183_reported.

(** so the reported vectors in those intervals are optimal themselves *)
Theorem C183_exact : forall n N v lo hi, (2 <= n)%nat -> In v (zdt3_front N) -> In (lo, hi) inside -> / 10 ^ 12 <= nth 0 v 0 -> lo <= nth 0 v 0 <= hi ->
  optimal (zdt_box n) zdt3 v.
Proof.
  intros n N v lo hi Hn Hv Hin He Ht. apply C166_zdt3 in Hv. destruct Hv as (a & b & i & _ & _ & ->). cbn [nth] in *.
  set (t := _ + _) in *. pose proof (C183_inside n lo hi t Hn Hin Ht) as H. rewrite Rmax_left in H by (unfold eps; lra). exact H.
Qed.
Print Assumptions C183_exact.

(** and the front is within 1e-7 of the reported regions *)
Theorem C183_covered : forall n u, (2 <= n)%nat -> optimal (zdt_box n) zdt3 u ->
  exists lo hi s, In (lo, hi) zdt3_regions /\ lo <= s <= hi /\ Rabs (nth 0 u 0 - s) <= 1 / 10000000.
Proof.
  intros n u Hn Ho. destruct (C183_around n u Hn Ho) as (t & a & b & -> & Hin & Ht). cbn [nth].
  assert (K : forall lo hi, In (lo, hi) zdt3_regions -> lo <= hi -> lo - 1 / 10000000 <= a -> b <= hi + 1 / 10000000 ->
    exists lo hi s, In (lo, hi) zdt3_regions /\ lo <= s <= hi /\ Rabs (t - s) <= 1 / 10000000).
  { intros lo hi Hr H1 H2 H3. exists lo, hi, (Rmax lo (Rmin t hi)). split; [auto|].
    destruct (Rle_dec t hi); [rewrite (Rmin_left t hi) by lra|rewrite (Rmin_right t hi) by lra];
      [destruct (Rle_dec t lo); [rewrite Rmax_left by lra|rewrite Rmax_right by lra]|rewrite Rmax_right by lra]; (split; [lra|apply Rabs_le; lra]). }
  destruct Hin as [E|[E|[E|[E|[E|[]]]]]]; injection E as <- <-.
  - apply (K 0 0.0830015349); [left; reflexivity|lra..].
  - apply (K 0.182228780 0.2577623634); [right; left; reflexivity|lra..].
  - apply (K 0.4093136748 0.4538821041); [right; right; left; reflexivity|lra..].
  - apply (K 0.6183967944 0.6525117038); [right; right; right; left; reflexivity|lra..].
  - apply (K 0.8233317983 0.8518328654); [right; right; right; right; left; reflexivity|lra..].
Qed.
Print Assumptions C183_covered.

(** a value in the third interval, and one between the third and the fourth *)
Example C183_example : (forall lo hi, In (lo, hi) around -> ~ lo <= 0.5 <= hi) /\ In (0.4093136848, 0.4538820941) inside /\ 0.4093136848 <= 0.42 <= 0.4538820941.
Proof.
  split; [|split; [simpl; auto|lra]]. intros lo hi [E|[E|[E|[E|[E|[]]]]]]; injection E as <- <-; lra.
Qed.
