(** The computed Hessian in the objective space. *)
From Coq Require Import List Arith Lia Reals Lra Permutation Bool Sorting.Sorted.
From Coquelicot Require Import Coquelicot.
From Verif Require Import Num Exn ListAux NDSModel NDSSpec NDSProof NDSTop UtilsModel UtilsProof
  HVModel HVSpec HVTheory HVTop HVExtra HVDModel HVDSpec HVDTheory HVDProof HVDTop HVHTheory.
Import ListNotations.
Open Scope R_scope.

Lemma insert_at_spec (k : nat) (x : R) (l : list R) : (k <= length l)%nat ->
  exists r, insert_at k x l = Ok r /\ length r = S (length l) /\
    nth k r 0 = x /\ forall c, c <> k -> nth c r 0 = nth (un k c) l 0.
Proof.
  revert l. induction k as [|k IH]; intros l Hk.
  - exists (x :: l). split; [destruct l; reflexivity|]. split; auto. split; auto. intros [|c] Hc; [congruence|].
    unfold un. simpl. rewrite Nat.sub_0_r. reflexivity.
  - destruct l as [|a l]; simpl in Hk; [lia|]. destruct (IH l ltac:(lia)) as (r & E & H1 & H2 & H3).
    exists (a :: r). simpl. rewrite E. cbn [bind]. split; auto. split; [simpl; lia|]. split; auto.
    intros [|c] Hc.
    + reflexivity.
    + rewrite H3 by lia. unfold un. destruct (Nat.ltb_spec c k), (Nat.ltb_spec (S c) (S k)); try lia; [reflexivity|].
      destruct c as [|c]; [lia|]. simpl. rewrite Nat.sub_0_r. reflexivity.
Qed.

Lemma nth_map_seq {A} (f : nat -> A) n i d : (i < n)%nat -> nth i (map f (seq 0 n)) d = f i.
Proof.
  intros Hi. rewrite (nth_indep _ d (f 0%nat)) by (rewrite map_length, seq_length; auto).
  rewrite (map_nth f), seq_nth; auto.
Qed.

Lemma out_row (nd : list nat) (g : list (list R)) s : NoDup nd -> (s < length nd)%nat -> length g = length nd ->
  map snd (filter (fun e : nat * list R => (fst e =? nth s nd 0)%nat) (combine nd g)) = [nth s g []].
Proof.
  revert g s. induction nd as [|a nd IH]; intros [|r g] s Hn Hs Hl; simpl in *; try lia.
  inversion Hn; subst. destruct s as [|s]; simpl.
  - rewrite Nat.eqb_refl. simpl. f_equal.
    assert (E : forall g', map snd (filter (fun e : nat * list R => (fst e =? a)%nat) (combine nd g')) = []).
    { clear -H1. induction nd as [|b nd IH]; intros [|r' g']; simpl; auto.
      destruct (Nat.eqb_spec b a) as [->|]; [exfalso; apply H1; simpl; auto|]. apply IH. intros Hc; apply H1; simpl; auto. }
    apply E.
  - destruct (Nat.eqb_spec a (nth s nd 0%nat)) as [E|E].
    + exfalso. apply H1. rewrite E. apply nth_In. lia.
    + apply IH; auto. lia.
Qed.

Section Code.
Variable minf : R.
Variable argsort : list R -> list nat.
Hypothesis Ha : argsort_ok argsort.

(** the gradient at the non-dominated rows of a set *)
Lemma nd_gradient Y ref : Y <> [] -> rows_ok Y ref -> (2 <= length ref)%nat -> above_all minf Y ref -> dims_any argsort Y ref ->
  (length ref = 2%nat -> inside Y ref) ->
  exists nd g, nondominated_indices (length ref) Y = Ok nd /\ NoDup nd /\
    hypervolume_dY minf argsort (gather [] Y nd) ref = Ok g /\ shape (length nd) (length ref) g /\
    (forall i, (i < length Y)%nat -> ~ (exists j, (j < length Y)%nat /\ dominates (row Y j) (row Y i)) -> In i nd) /\
    (forall s k, (s < length nd)%nat -> (k < length ref)%nat -> no_tie Y (nth s nd 0%nat) k ->
       coord g s k = gradf Y ref (nth s nd 0%nat) k).
Proof.
  intros HY Hr H2 Hab Hdim Hin2.
  destruct (nondominated_spec Y (length ref) HY ltac:(lia) Hr) as (nd & E & N1 & N2 & N3 & N4 & N5).
  set (F := gather [] Y nd).
  assert (HlF : length F = length nd) by (unfold F, gather; apply map_length).
  destruct (dY_correct minf argsort Ha F ref) as (g & Eg & [Hs1 Hs2] & Hg); auto.
  - apply nd_rows; auto.
  - intros i k Hi Hk. rewrite HlF in Hi. unfold F. rewrite gather_coord by auto. apply Hab; auto. apply N2, nth_In; auto.
  - apply nd_dims; auto.
  - intros E2. split.
    + intros a b Ha' Hb Hgt. rewrite HlF in Ha', Hb. unfold F in *. rewrite gather_coord in Hgt |- * by auto.
      rewrite gather_coord in Hgt |- * by auto. set (i := nth a nd 0%nat) in *. set (j := nth b nd 0%nat) in *.
      assert (Hi : (i < length Y)%nat) by (apply N2, nth_In; auto).
      assert (Hj : (j < length Y)%nat) by (apply N2, nth_In; auto).
      destruct (Rle_dec (coord Y i 0) (coord Y j 0)); auto. exfalso.
      apply (N4 i); [apply nth_In; auto|]. exists j. split; auto.
      pose proof (Hr (nth i Y []) ltac:(apply nth_In; auto)). pose proof (Hr (nth j Y []) ltac:(apply nth_In; auto)).
      unfold row. split; [congruence|]. split.
      * intros [|[|k]] Hk; try lia; unfold coord in *; lra.
      * exists 0%nat. split; [lia|]. unfold coord in *; lra.
    + intros a l Ha' Hl. rewrite HlF in Ha'. unfold F. rewrite gather_coord by auto. apply Rlt_le, Hin2; auto; try lia.
      apply N2, nth_In; auto.
  - exists nd, g. rewrite HlF in *. split; auto. split; auto. split; auto. split; [split; auto|]. split; auto.
    intros s k Hs Hk Hnt. rewrite Hg; auto.
    + apply gradf_nd; auto.
    + intros _ t Ht Hne. rewrite HlF in Ht. unfold F. rewrite !gather_coord by auto.
      apply Hnt; [apply N2, nth_In; auto|]. intros Ec. apply Hne. apply (proj1 (NoDup_nth nd 0%nat) N1); auto.
Qed.

Section Column.
Variables (Y : list (list R)) (ref : list R) (d : nat) (i k : nat).
Hypothesis Hr : rows_ok Y ref.
Hypothesis Hd : length ref = S (S d).
Hypothesis Hd3 : (d <= 3)%nat \/ (d = 4%nat /\ argsort_stable argsort).
Hypothesis HG : general_position Y ref.
Hypothesis Hin : inside Y ref.
Hypothesis Hab : above_all minf Y ref.
Hypothesis Hi : (i < length Y)%nat.
Hypothesis Hk : (k < length ref)%nat.
Hypothesis Hnd : ~ exists j, (j < length Y)%nat /\ dominates (row Y j) (row Y i).

Variables (front_ : list (list R)) (idx : list nat).
Hypothesis P1 : length front_ = length idx.
Hypothesis P2 : NoDup idx.
Hypothesis P3 : forall s, (s < length idx)%nat -> (nth s idx 0 < length Y)%nat /\ coord Y (nth s idx 0%nat) k < coord Y i k /\
        nth s front_ [] = delete_at k (nth (nth s idx 0%nat) Y []).
Hypothesis P4 : forall j, (j < length Y)%nat -> coord Y j k < coord Y i k ->
        exists s, (s < length idx)%nat /\ weakly_dominates (nth s front_ []) (delete_at k (nth j Y [])).
Hypothesis P5 : forall s j, (s < length idx)%nat -> (j < length Y)%nat -> coord Y j k < coord Y i k ->
        ~ dominates (delete_at k (nth j Y [])) (nth s front_ []).

Let y_ := delete_at k (nth i Y []).
Let ref_ := delete_at k ref.
Let Y_ := y_ :: front_.

Lemma Hlen a : (a < length Y)%nat -> length (nth a Y []) = S (S d).
Proof using All. clear -Hr Hd. intros Hl. rewrite <- Hd. apply Hr, nth_In; auto. Qed.
Lemma Hlref : length ref_ = S d.
Proof using All. clear -Hk Hd. unfold ref_. rewrite delete_at_length; lia. Qed.
Lemma Hlrow a : (a < length Y)%nat -> length (delete_at k (nth a Y [])) = S d.
Proof using All. intros Ha'. rewrite delete_at_length; rewrite Hlen by auto; lia. Qed.
Lemma Hly : length y_ = S d.
Proof using All. apply Hlrow; auto. Qed.
Lemma Hlf s : (s < length idx)%nat -> length (nth s front_ []) = S d.
Proof using All. intros Hs. destruct (P3 s Hs) as (S1 & S2 & ->). apply Hlrow; auto. Qed.

(** original coordinate of a projected one *)
Let rk (l : nat) : nat := if (l <? k)%nat then l else S l.
Lemma rk_lt l : (l < S d)%nat -> (rk l < length ref)%nat.
Proof using All. clear -Hd. intros Hl. unfold rk. destruct (Nat.ltb_spec l k); lia. Qed.
Lemma rk_ne l : rk l <> k.
Proof using All. clear. unfold rk. destruct (Nat.ltb_spec l k); lia. Qed.
Lemma un_rk l : un k (rk l) = l.
Proof using All. clear. unfold un, rk. destruct (Nat.ltb_spec l k); destruct (Nat.ltb_spec l k); try lia; destruct (Nat.ltb_spec (S l) k); lia. Qed.
Lemma rk_un l : l <> k -> rk (un k l) = l.
Proof using All. clear. intros Hne. unfold un, rk. destruct (Nat.ltb_spec l k); destruct (Nat.ltb_spec l k); try lia; destruct (Nat.ltb_spec (l - 1) k); lia. Qed.
Lemma un_lt l : l <> k -> (l < length ref)%nat -> (un k l < S d)%nat.
Proof using All. clear -Hd Hk. intros Hne Hl. unfold un. destruct (Nat.ltb_spec l k); lia. Qed.

(** index of the rows of Y_ *)
Let J := i :: idx.
Lemma J_NoDup : NoDup J.
Proof using All.
  constructor; auto. intros Hc. apply In_nth with (d := 0%nat) in Hc as (s & Hs & E).
  destruct (P3 s Hs) as (_ & Hlt & _). rewrite E in Hlt. lra.
Qed.
Lemma J_row s : (s < length J)%nat -> (nth s J 0 < length Y)%nat /\ nth s Y_ [] = delete_at k (nth (nth s J 0%nat) Y []).
Proof using All.
  destruct s as [|s]; intros Hs; simpl in *; auto. destruct (P3 s ltac:(lia)) as (S1 & S2 & S3). auto.
Qed.
Lemma J_len : length Y_ = length J.
Proof using All. simpl. lia. Qed.
Lemma Y_coord s l : (s < length J)%nat -> coord Y_ s l = coord Y (nth s J 0%nat) (rk l).
Proof using All. intros Hs. unfold coord at 1. destruct (J_row s Hs) as [_ ->]. apply delete_coord. Qed.
Lemma Y_rows : rows_ok Y_ ref_.
Proof using All.
  intros p Hp. apply In_nth with (d := []) in Hp as (s & Hs & <-). rewrite J_len in Hs. destruct (J_row s Hs) as [S1 ->].
  rewrite Hlrow, Hlref; auto.
Qed.
Lemma ref_nth l : nth l ref_ 0 = nth (rk l) ref 0.
Proof. unfold ref_, rk. rewrite nth_delete_at. destruct (l <? k)%nat; auto. Qed.
Lemma Y_above : above_all minf Y_ ref_.
Proof using All.
  intros s l Hs Hl. rewrite J_len in Hs. rewrite Hlref in Hl. rewrite Y_coord, ref_nth by auto.
  apply Hab; [apply J_row; auto|apply rk_lt; auto].
Qed.
Lemma Y_inside : inside Y_ ref_.
Proof using All.
  intros s l Hs Hl. rewrite J_len in Hs. rewrite Hlref in Hl. rewrite Y_coord, ref_nth by auto.
  apply Hin; [apply J_row; auto|apply rk_lt; auto].
Qed.
Lemma Y_notie s l : (s < length J)%nat -> (l < S d)%nat -> no_tie Y_ s l.
Proof using All.
  intros Hs Hl t Ht Hne. rewrite J_len in Ht. rewrite !Y_coord by auto.
  apply (proj1 HG); [apply J_row; auto|apply rk_lt; auto|apply J_row; auto|].
  intros E. apply Hne. apply (proj1 (NoDup_nth J 0%nat) J_NoDup); auto.
Qed.

Lemma y_not_dominated s : (s < length idx)%nat -> ~ weakly_dominates (nth s front_ []) y_.
Proof using All.
  intros Hs [Hl Hle]. destruct (P3 s Hs) as (S1 & S2 & E). apply Hnd. exists (nth s idx 0%nat). split; auto.
  unfold row. split; [rewrite !Hlen; auto|]. rewrite Hlen by auto.
  assert (Hc : forall c, (c < S (S d))%nat -> c <> k -> nth c (nth (nth s idx 0%nat) Y []) 0 <= nth c (nth i Y []) 0).
  { intros c Hc Hne. specialize (Hle (un k c)). rewrite Hlf in Hle by auto.
    specialize (Hle (un_lt c Hne ltac:(lia))). rewrite E in Hle. unfold y_ in Hle. rewrite !delete_coord in Hle.
    fold (rk (un k c)) in Hle. rewrite !rk_un in Hle by auto. exact Hle. }
  split.
  - intros c Hcl. destruct (Nat.eq_dec c k) as [->|Hne]; [unfold coord in S2; lra|auto].
  - exists k. split; [lia|]. exact S2.
Qed.

Lemma slope_cover l' : (l' < S d)%nat -> slope_lt d (co ref_) (map co Y_) (co y_) l' =
  slope_lt d (drop k (co ref)) (map (pk Y k) (idxlt Y i k)) (pk Y k i) l'.
Proof using All.
  intros Hl'. unfold slope_lt.
  assert (Ey : forall c, co y_ c = pk Y k i c) by (intros; apply co_delete_at).
  rewrite (exc_ext_q d _ _ (drop l' (co y_)) (drop l' (pk Y k i))) by (intros; unfold drop; destruct (_ <? _)%nat; apply Ey).
  rewrite (exc_ext_r d (drop l' (co ref_)) (drop l' (drop k (co ref)))).
  2:{ intros c Hc. unfold drop at 1 2. destruct (_ <? _)%nat; apply co_delete_at. }
  apply exc_cover.
  - intros p Hp. apply in_map_iff in Hp as (q & <- & Hq). apply filter_In in Hq as [Hq Hlt]. apply ltb_true in Hlt.
    apply in_map_iff in Hq as (q' & <- & Hq). apply In_nth with (d := []) in Hq as (s & Hs & <-). rewrite J_len in Hs.
    destruct s as [|s]; [simpl in Hlt; lra|]. change (nth (S s) Y_ []) with (nth s front_ []) in *. simpl in Hs.
    destruct (P3 s ltac:(lia)) as (S1 & S2 & E). exists (drop l' (pk Y k (nth s idx 0%nat))). split.
    + apply in_map. apply filter_In. split; [apply in_map, idxlt_In; auto|]. apply ltb_true.
      rewrite Ey, E in Hlt. rewrite co_delete_at in Hlt. exact Hlt.
    + intros c Hc. rewrite E. unfold drop at 1 2. destruct (_ <? _)%nat; rewrite co_delete_at; unfold pk; lra.
  - intros p Hp. apply in_map_iff in Hp as (q & <- & Hq). apply filter_In in Hq as [Hq Hlt]. apply ltb_true in Hlt.
    apply in_map_iff in Hq as (a & <- & Hq). apply idxlt_In in Hq as [Ha1 Ha2].
    destruct (P4 a Ha1 Ha2) as (s & Hs & Hw & Hle). rewrite Hlf in Hle by auto.
    assert (Hle' : forall c, (c < S d)%nat -> co (nth s front_ []) c <= pk Y k a c).
    { intros c Hc. unfold pk. rewrite <- co_delete_at. apply Hle; auto. }
    exists (drop l' (co (nth s front_ []))). split.
    + apply in_map. apply filter_In. split; [apply in_map; right; apply nth_In; lia|]. apply ltb_true.
      rewrite Ey. specialize (Hle' l' Hl'). lra.
    + intros c Hc. unfold drop at 1 2. destruct (Nat.ltb_spec c l'); apply Hle'; lia.
Qed.

(** the diagonal block *)
Lemma own_block :
  exists nd g own, nondominated_indices (length ref_) Y_ = Ok nd /\
    hypervolume_dY minf argsort (gather [] Y_ nd) ref_ = Ok g /\
    insert_at k nzero (map (nmul (nopp none_)) (concat (map snd (filter (fun e => Nat.eqb (fst e) 0) (combine nd g))))) = Ok own /\
    length own = length ref /\ forall l, (l < length ref)%nat -> nth l own 0 = hessf Y ref d i k i l.
Proof using All.
  assert (HYne : Y_ <> []) by discriminate.
  assert (Hgrad : exists nd g s0, nondominated_indices (length ref_) Y_ = Ok nd /\ NoDup nd /\
    hypervolume_dY minf argsort (gather [] Y_ nd) ref_ = Ok g /\ length g = length nd /\ (s0 < length nd)%nat /\ nth s0 nd 0%nat = 0%nat /\
    length (nth s0 g []) = S d /\
    forall l, (l < S d)%nat -> nth l (nth s0 g []) 0 = - slope_lt d (co ref_) (map co Y_) (co y_) l).
  { destruct (Nat.eq_dec d 0) as [Ed|Ed].
    - (* two objectives *)
      destruct (nondominated_spec Y_ (length ref_) HYne ltac:(rewrite Hlref; lia) Y_rows) as (nd & E & N1 & N2 & N3 & N4 & _).
      pose proof Hlref as Hl1. rewrite Ed in Hl1. unfold nondominated_indices in E |- *. rewrite Hl1 in E |- *. simpl Nat.eqb in E |- *.
      destruct (argmin (concat Y_)) as [a|] eqn:Eam; [|discriminate]. cbn [bind] in E |- *. injection E as <-.
      assert (Ea : a = 0%nat).
      { destruct a as [|a]; auto. exfalso. destruct (N3 0%nat ltac:(simpl; lia)) as (j & [<-|[]] & Hw).
        unfold row in Hw. simpl in Hw. apply (y_not_dominated a); auto.
        specialize (N2 (S a) ltac:(simpl; auto)). simpl in N2. lia. }
      subst a. exists [0%nat], [[-1]], 0%nat. split; auto. split; auto.
      split; [unfold hypervolume_dY; rewrite Hl1; simpl; numR; do 3 f_equal; lra|]. split; auto. split; [simpl; lia|]. split; auto.
      split; [rewrite Ed; auto|]. intros l Hl. replace l with 0%nat by lia. simpl nth. rewrite Ed.
      unfold slope_lt.
      assert (Ef : filter (fun p : pt => ltb (p 0%nat) (co y_ 0%nat)) (map co Y_) = []).
      { destruct (filter _ _) as [|p q] eqn:Ef; auto. exfalso.
        assert (Hp : In p (p :: q)) by (simpl; auto). rewrite <- Ef in Hp. apply filter_In in Hp as [Hp Hlt]. apply ltb_true in Hlt.
        apply in_map_iff in Hp as (p' & <- & Hp). apply In_nth with (d := []) in Hp as (s & Hs & <-).
        destruct s as [|s]; [simpl in Hlt; lra|]. rewrite J_len in Hs. simpl in Hs. change (nth (S s) Y_ []) with (nth s front_ []) in Hlt.
        apply (y_not_dominated s); [lia|]. split; [rewrite Hlf, Hly by lia; auto|]. rewrite Hlf, Ed by lia.
        intros c Hc. replace c with 0%nat by lia. unfold co in Hlt. lra. }
      transitivity (- exc 0 (drop 0 (co ref_)) (map (drop 0) []) (drop 0 (co y_))).
      + unfold exc, hvs, box. simpl. ring.
      + f_equal. f_equal. rewrite <- Ef. reflexivity.
    - destruct (nd_gradient Y_ ref_) as (nd & g & E & N1 & Eg & [G1 G2] & G3 & G4); auto.
      + apply Y_rows.
      + rewrite Hlref; lia.
      + apply Y_above.
      + right; left. split; [intros s l Hs Hl; rewrite J_len in Hs; rewrite Hlref in Hl; apply Y_notie; auto|].
        intros s l Hs Hl. apply Rlt_not_eq, Y_inside; auto.
      + intros _. apply Y_inside.
      + assert (H0 : In 0%nat nd).
        { apply G3; [simpl; lia|]. intros (s & Hs & Hdom). rewrite J_len in Hs. destruct s as [|s].
          - apply (dominates_irrefl _ Hdom).
          - simpl in Hs. apply (y_not_dominated s); [lia|]. destruct Hdom as (D1 & D2 & _). split; auto. }
        apply In_nth with (d := 0%nat) in H0 as (s0 & Hs0 & Es0). exists nd, g, s0.
        assert (Hls : length (nth s0 g []) = S d) by (rewrite (G2 (nth s0 g [])), Hlref; auto; apply nth_In; lia).
        do 7 (split; auto). intros l Hl. change (nth l (nth s0 g []) 0) with (coord g s0 l).
        rewrite G4; auto; rewrite ?Es0, ?Hlref; auto.
        * unfold gradf. rewrite Hlref. replace (S d - 1)%nat with d by lia. reflexivity.
        * apply Y_notie; auto. simpl. lia. }
  destruct Hgrad as (nd & g & s0 & E & N1 & Eg & Hlg & Hs0 & Es0 & Hlr & Hval).
  exists nd, g.
  assert (Eo : map snd (filter (fun e : nat * list R => (fst e =? 0)%nat) (combine nd g)) = [nth s0 g []]).
  { rewrite <- Es0. apply out_row; auto. }
  rewrite Eo. cbn [concat]. rewrite app_nil_r.
  destruct (insert_at_spec k nzero (map (nmul (nopp none_)) (nth s0 g []))) as (own & Eown & L1 & L2 & L3).
  { rewrite map_length. lia. }
  exists own. split; auto. split; auto. split; auto. rewrite map_length in L1. split; [lia|].
  intros l Hl. unfold hessf. destruct (Nat.eqb_spec l k) as [->|Hne]; [exact L2|]. rewrite Nat.eqb_refl.
  rewrite L3 by auto. rewrite <- slope_cover by (apply un_lt; auto).
  rewrite (nth_indep _ 0 (nmul (nopp none_) 0)) by (rewrite map_length, Hlr; apply un_lt; auto).
  rewrite map_nth. rewrite Hval by (apply un_lt; auto). numR. ring.
Qed.

(** the other blocks *)
Let C := map (clip y_ ref_) front_.
Lemma C_nth s l : (s < length idx)%nat -> (l < S d)%nat -> coord C s l = Rmax (coord Y (nth s idx 0%nat) (rk l)) (coord Y i (rk l)).
Proof using All.
  intros Hs Hl. unfold coord at 1. unfold C.
  rewrite (nth_indep _ [] (clip y_ ref_ [])) by (rewrite map_length; lia). rewrite map_nth. unfold clip.
  rewrite (map2_nth _ _ _ 0 0) by (rewrite ?map2_length, ?Hlf, ?Hly, ?Hlref; auto; lia).
  rewrite (map2_nth _ _ _ 0 0) by (rewrite ?Hlf, ?Hly; auto; lia).
  destruct (P3 s Hs) as (S1 & S2 & E). rewrite E. unfold y_. rewrite !delete_coord, ref_nth. fold (rk l).
  rewrite nmin_Rmin, nmax_Rmax. pose proof (Hin _ (rk l) S1 (rk_lt l Hl)). pose proof (Hin i (rk l) Hi (rk_lt l Hl)).
  apply Rmin_left. apply Rmax_lub; lra.
Qed.
Lemma C_len : length C = length idx.
Proof using All. unfold C. rewrite map_length. auto. Qed.
Lemma C_rows : rows_ok C ref_.
Proof using All.
  intros p Hp. apply In_nth with (d := []) in Hp as (s & Hs & <-). rewrite C_len in Hs. unfold C.
  rewrite (nth_indep _ [] (clip y_ ref_ [])) by (rewrite map_length; lia). rewrite map_nth. unfold clip.
  rewrite !map2_length, Hlf, Hly, Hlref by auto. lia.
Qed.

Lemma C_slope s l : (s < length idx)%nat -> (l < S d)%nat ->
  let j := nth s idx 0%nat in coord Y i (rk l) < coord Y j (rk l) ->
  gradf C ref_ s l = - slope_lt d (drop k (co ref)) (map (pk Y k) (idxlt Y i k)) (pjoin (pk Y k j) (pk Y k i)) l.
Proof using All.
  intros Hs Hl j Hlt. unfold gradf. rewrite Hlref. replace (S d - 1)%nat with d by lia. f_equal. unfold slope_lt.
  set (c := pjoin (pk Y k j) (pk Y k i)).
  assert (Ec : forall x, (x < S d)%nat -> co (nth s C []) x = c x).
  { intros x Hx. change (co (nth s C []) x) with (coord C s x). rewrite C_nth by auto. fold j. unfold c, pjoin, pk.
    rewrite <- !co_delete_at. unfold co. rewrite !delete_coord. reflexivity. }
  assert (Epk : forall a x, pk Y k a x = coord Y a (rk x)).
  { intros a x. unfold pk. rewrite <- co_delete_at. unfold co. apply delete_coord. }
  assert (Ecl : c l = coord Y j (rk l)) by (unfold c, pjoin; rewrite !Epk; apply Rmax_left; lra).
  rewrite (exc_ext_q d _ _ (drop l (co (nth s C []))) (drop l c)).
  2:{ intros x Hx. unfold drop. destruct (Nat.ltb_spec x l); apply Ec; lia. }
  rewrite (exc_ext_r d (drop l (co ref_)) (drop l (drop k (co ref)))).
  2:{ intros x Hx. unfold drop at 1 2. destruct (_ <? _)%nat; apply co_delete_at. }
  assert (Hdr : forall (p q : pt), (forall x, (x < S d)%nat -> p x <= Rmax (q x) (c x)) ->
     forall x, (x < d)%nat -> drop l p x <= Rmax (drop l q x) (drop l c x)).
  { intros p q Hpq x Hx. unfold drop. destruct (Nat.ltb_spec x l); apply Hpq; lia. }
  apply exc_cover_q.
  - intros p Hp. apply in_map_iff in Hp as (q & <- & Hq). apply filter_In in Hq as [Hq Hq2]. apply ltb_true in Hq2.
    apply in_map_iff in Hq as (q' & <- & Hq). apply In_nth with (d := []) in Hq as (u & Hu & <-). rewrite C_len in Hu.
    rewrite Ec, Ecl in Hq2 by auto. change (co (nth u C []) l) with (coord C u l) in Hq2. rewrite C_nth in Hq2 by auto.
    destruct (P3 u Hu) as (U1 & U2 & U3). exists (drop l (pk Y k (nth u idx 0%nat))). split.
    + apply in_map. apply filter_In. split; [apply in_map, idxlt_In; auto|]. apply ltb_true. rewrite Epk, Ecl.
      pose proof (Rmax_l (coord Y (nth u idx 0%nat) (rk l)) (coord Y i (rk l))). lra.
    + apply Hdr. intros x Hx. change (co (nth u C []) x) with (coord C u x). rewrite C_nth, Epk by auto.
      eapply Rle_trans; [apply Rmax_l|apply Rmax_l].
  - intros p Hp. apply in_map_iff in Hp as (q & <- & Hq). apply filter_In in Hq as [Hq Hq2]. apply ltb_true in Hq2.
    apply in_map_iff in Hq as (a & <- & Hq). apply idxlt_In in Hq as [A1 A2]. rewrite Epk, Ecl in Hq2.
    destruct (P4 a A1 A2) as (u & Hu & Hw & Hle). rewrite Hlf in Hle by auto.
    destruct (P3 u Hu) as (U1 & U2 & U3).
    assert (Hle' : forall x, (x < S d)%nat -> coord Y (nth u idx 0%nat) (rk x) <= coord Y a (rk x)).
    { intros x Hx. specialize (Hle x Hx). rewrite U3, !delete_coord in Hle. exact Hle. }
    exists (drop l (co (nth u C []))). split.
    + apply in_map. apply filter_In. split; [apply in_map, nth_In; rewrite C_len; auto|]. apply ltb_true.
      rewrite Ec, Ecl by auto. change (co (nth u C []) l) with (coord C u l). rewrite C_nth by auto.
      apply Rmax_lub_lt; auto. specialize (Hle' l Hl). lra.
    + apply Hdr. intros x Hx. change (co (nth u C []) x) with (coord C u x). rewrite C_nth, Epk by auto.
      apply Rmax_lub.
      * eapply Rle_trans; [apply Hle'; auto|apply Rmax_l].
      * eapply Rle_trans; [|apply Rmax_r]. unfold c, pjoin. rewrite !Epk. apply Rmax_r.
Qed.

Lemma C_gradient : exists g2, hypervolume_dY minf argsort C ref_ = Ok g2 /\
  (length idx <= length g2)%nat /\ (forall s, (s < length idx)%nat -> length (nth s g2 []) = S d) /\
  forall s l, (s < length idx)%nat -> (l < S d)%nat -> coord Y i (rk l) < coord Y (nth s idx 0%nat) (rk l) ->
    coord g2 s l = gradf C ref_ s l.
Proof using All.
  destruct (Nat.eq_dec d 0) as [Ed|Ed].
  - (* two objectives: at most one point *)
    pose proof Hlref as Hl1. rewrite Ed in Hl1.
    assert (Hone : (length idx <= 1)%nat).
    { destruct (Nat.le_gt_cases (length idx) 1) as [|Hgt]; auto. exfalso.
      destruct (P3 0%nat ltac:(lia)) as (A1 & A2 & A3), (P3 1%nat ltac:(lia)) as (B1 & B2 & B3).
      set (a := nth 0 idx 0%nat) in *. set (b := nth 1 idx 0%nat) in *.
      assert (Hab' : a <> b) by (intros E; apply (proj1 (NoDup_nth idx 0%nat) P2) in E; lia).
      assert (Hne : coord Y a (rk 0) <> coord Y b (rk 0)).
      { apply (proj1 HG); auto. apply rk_lt. lia. }
      assert (Hdom : forall u v, (u < length Y)%nat -> (v < length Y)%nat -> coord Y u (rk 0) < coord Y v (rk 0) ->
         dominates (delete_at k (nth u Y [])) (delete_at k (nth v Y []))).
      { intros u v Hu Hv Hlt. split; [rewrite !Hlrow; auto|]. rewrite Hlrow, Ed by auto. split.
        - intros c Hc. replace c with 0%nat by lia. rewrite !delete_coord. fold (rk 0). lra.
        - exists 0%nat. split; [lia|]. rewrite !delete_coord. exact Hlt. }
      destruct (Rlt_le_dec (coord Y a (rk 0)) (coord Y b (rk 0))) as [Hlt|Hge].
      - apply (P5 1%nat a ltac:(lia) A1 A2). rewrite B3. apply Hdom; auto.
      - apply (P5 0%nat b ltac:(lia) B1 B2). rewrite A3. apply Hdom; auto; lra. }
    exists [[-1]]. split; [unfold hypervolume_dY; rewrite Hl1; simpl; numR; do 3 f_equal; lra|].
    split; [simpl; lia|]. split; [intros s Hs; replace s with 0%nat by lia; rewrite Ed; reflexivity|].
    intros s l Hs Hl _. replace s with 0%nat by lia. replace l with 0%nat by lia. unfold coord. simpl nth.
    unfold gradf. rewrite Hl1. simpl Nat.sub. unfold slope_lt.
    assert (HC1 : exists c0, C = [c0]).
    { pose proof C_len as HC. destruct C as [|c0 [|c1 C']]; simpl in HC; try lia. eauto. }
    destruct HC1 as [c0 ->]. simpl nth. simpl map. simpl filter.
    assert (Hf : ltb (co c0 0%nat) (co c0 0%nat) = false).
    { destruct (ltb (co c0 0%nat) (co c0 0%nat)) eqn:Ef; auto. apply ltb_true in Ef. lra. }
    rewrite Hf. unfold exc, hvs, box. simpl. ring.
  - destruct (dY_correct minf argsort Ha C ref_ C_rows) as (g2 & Eg & [G1 G2] & Hg).
    + rewrite Hlref. lia.
    + intros s l Hs Hl. rewrite C_len in Hs. rewrite Hlref in Hl. rewrite C_nth, ref_nth by auto.
      destruct (P3 s Hs) as (S1 & _). specialize (Hab _ (rk l) S1 (rk_lt l Hl)).
      pose proof (Rmax_l (coord Y (nth s idx 0%nat) (rk l)) (coord Y i (rk l))). lra.
    + destruct Hd3 as [Hd3'|[Ed4 Hst]]; [left; rewrite Hlref; lia|right; right].
      split; [rewrite Hlref; lia|]. split; auto. split.
      * intros s l Hs Hl. rewrite C_len in Hs. rewrite Hlref in Hl. rewrite C_nth, ref_nth by auto.
        destruct (P3 s Hs) as (S1 & _). apply Rlt_not_eq.
        apply Rmax_lub_lt; apply Hin; auto; apply rk_lt; auto.
      * right. exists (fun l => coord Y i (rk l)). split.
        -- intros s l Hs Hl. rewrite C_len in Hs. rewrite Hlref in Hl. rewrite C_nth by auto. apply Rmax_r.
        -- intros s u l Hs Hu Hne Hl. rewrite C_len in Hs, Hu. rewrite Hlref in Hl. rewrite !C_nth by auto.
           destruct (P3 s Hs) as (S1 & _), (P3 u Hu) as (U1 & _).
           assert (Hd' : coord Y (nth u idx 0%nat) (rk l) <> coord Y (nth s idx 0%nat) (rk l)).
           { apply (proj1 HG); auto; [apply rk_lt; auto|]. intros E. apply Hne. apply (proj1 (NoDup_nth idx 0%nat) P2); auto. }
           unfold Rmax. destruct (Rle_dec _ _), (Rle_dec _ _); lra.
    + intros H2. rewrite Hlref in H2. split.
      * intros a b Ha' Hb Hgt. rewrite C_len in Ha', Hb. rewrite !C_nth in * by (auto; lia).
        destruct (P3 a Ha') as (A1 & A2 & A3), (P3 b Hb) as (B1 & B2 & B3).
        set (u := nth a idx 0%nat) in *. set (v := nth b idx 0%nat) in *.
        assert (Huv : coord Y u (rk 1) > coord Y v (rk 1)).
        { destruct (Rgt_dec (coord Y u (rk 1)) (coord Y v (rk 1))) as [|Hn]; auto. exfalso.
          assert (Rmax (coord Y u (rk 1)) (coord Y i (rk 1)) <= Rmax (coord Y v (rk 1)) (coord Y i (rk 1))); [|lra].
          apply Rle_max_compat_r. lra. }
        apply Rle_max_compat_r. destruct (Rle_dec (coord Y u (rk 0)) (coord Y v (rk 0))); auto. exfalso.
        apply (P5 a v); auto. rewrite A3. split; [rewrite !Hlrow; auto|]. rewrite Hlrow by auto. split.
        -- intros c Hc. rewrite !delete_coord. fold (rk c). destruct c as [|[|c]]; try lia; lra.
        -- exists 0%nat. split; [lia|]. rewrite !delete_coord. fold (rk 0). lra.
      * intros s l Hs Hl. rewrite C_len in Hs. rewrite C_nth, ref_nth by (auto; lia). destruct (P3 s Hs) as (S1 & _).
        pose proof (Hin _ (rk l) S1 (rk_lt l ltac:(lia))). pose proof (Hin i (rk l) Hi (rk_lt l ltac:(lia))).
        apply Rmax_lub; lra.
    + rewrite C_len, Hlref in *. exists g2. split; auto. split; [lia|]. split.
      { intros s Hs. apply G2. apply nth_In. lia. }
      intros s l Hs Hl Hlt. apply Hg; auto. intros _ u Hu Hne. rewrite C_len in Hu. rewrite !C_nth by auto.
      rewrite (Rmax_left (coord Y (nth s idx 0%nat) (rk l))) by lra.
      destruct (P3 s Hs) as (S1 & _), (P3 u Hu) as (U1 & _).
      assert (Hd' : coord Y (nth u idx 0%nat) (rk l) <> coord Y (nth s idx 0%nat) (rk l)).
      { apply (proj1 HG); auto; [apply rk_lt; auto|]. intros E. apply Hne. apply (proj1 (NoDup_nth idx 0%nat) P2); auto. }
      unfold Rmax. destruct (Rle_dec _ _); lra.
Qed.

Lemma off_blocks : exists g2 g4, hypervolume_dY minf argsort C ref_ = Ok g2 /\
  map_res (insert_at k nzero)
    (map2 (fun p row => map2 (fun px ye => if nltb px (fst ye) then nzero else snd ye) p (combine y_ row)) front_ g2) = Ok g4 /\
  length g4 = length idx /\ forall s, (s < length idx)%nat -> length (nth s g4 []) = length ref /\
    forall l, (l < length ref)%nat -> nth l (nth s g4 []) 0 = hessf Y ref d i k (nth s idx 0%nat) l.
Proof using All.
  destruct C_gradient as (g2 & Eg & G1 & G2 & G3). exists g2.
  set (f := fun (p row : list R) => map2 (fun (px : R) (ye : R * R) => if nltb px (fst ye) then nzero else snd ye) p (combine y_ row)).
  set (g3 := map2 f front_ g2).
  assert (L3 : length g3 = length idx) by (unfold g3; rewrite map2_length; lia).
  assert (N3 : forall s, (s < length idx)%nat -> nth s g3 [] = f (nth s front_ []) (nth s g2 [])).
  { intros s Hs. unfold g3. apply (map2_nth f front_ g2 [] [] []); lia. }
  assert (NL : forall s, (s < length idx)%nat -> length (nth s g3 []) = S d).
  { intros s Hs. rewrite N3 by auto. unfold f. rewrite map2_length, combine_length, Hlf, Hly, G2 by auto. lia. }
  assert (NV : forall s l, (s < length idx)%nat -> (l < S d)%nat -> nth l (nth s g3 []) 0 =
     if nltb (coord Y (nth s idx 0%nat) (rk l)) (coord Y i (rk l)) then 0 else coord g2 s l).
  { intros s l Hs Hl. rewrite N3 by auto. unfold f.
    rewrite (map2_nth _ _ _ 0 (0, 0)) by (rewrite ?combine_length, ?Hlf, ?Hly, ?G2 by auto; lia).
    rewrite combine_nth by (rewrite Hly, G2; auto). cbn [fst snd].
    destruct (P3 s Hs) as (_ & _ & E). rewrite E. unfold y_. rewrite !delete_coord. fold (rk l). reflexivity. }
  assert (Hins : exists g4, map_res (insert_at k nzero) g3 = Ok g4 /\ length g4 = length g3 /\
     forall s, (s < length g3)%nat -> length (nth s g4 []) = length ref /\ nth k (nth s g4 []) 0 = 0 /\
       forall c, c <> k -> nth c (nth s g4 []) 0 = nth (un k c) (nth s g3 []) 0).
  { assert (Hall : forall r, In r g3 -> length r = S d).
    { intros r Hr'. apply In_nth with (d := []) in Hr' as (s & Hs & <-). apply NL. lia. }
    clear -Hall Hk Hd. induction g3 as [|r g3 IH].
    - exists []. simpl. split; auto. split; auto. intros; lia.
    - destruct IH as (g4 & E & L & Hs); [intros; apply Hall; simpl; auto|].
      destruct (insert_at_spec k nzero r) as (r' & E' & L' & V1 & V2); [rewrite (Hall r) by (simpl; auto); lia|].
      exists (r' :: g4). cbn [map_res]. rewrite E'. cbn [bind]. rewrite E. cbn [bind]. split; auto. split; [simpl; lia|].
      intros [|s] Hsl; simpl in Hsl |- *.
      + split; [rewrite L', (Hall r) by (simpl; auto); lia|]. split; auto.
      + apply Hs. lia. }
  destruct Hins as (g4 & E4 & L4 & H4). exists g4. split; auto. split; [exact E4|]. split; [lia|].
  intros s Hs. destruct (H4 s ltac:(lia)) as (V0 & V1 & V2). split; auto.
  destruct (P3 s Hs) as (S1 & S2 & S3). set (j := nth s idx 0%nat) in *.
  assert (Hji : j <> i) by (intros E; rewrite E in S2; lra).
  intros l Hl. unfold hessf. destruct (Nat.eqb_spec l k) as [->|Hne]; auto.
  destruct (Nat.eqb_spec j i) as [|_]; [contradiction|]. rewrite V2 by auto.
  rewrite NV by (auto; apply un_lt; auto). rewrite rk_un by auto. fold j.
  rewrite (proj2 (ltb_true _ _) S2). cbn [andb].
  destruct (nltb_spec (coord Y j l) (coord Y i l)) as [Hlt|Hge].
  - destruct (ltb (coord Y i l) (coord Y j l)) eqn:E; auto. apply ltb_true in E. numR. lra.
  - assert (Hlt : coord Y i l < coord Y j l).
    { assert (coord Y j l <> coord Y i l) by (apply (proj1 HG); auto). apply Rnot_lt_le in Hge. lra. }
    rewrite (proj2 (ltb_true _ _) Hlt). rewrite G3; auto; [|apply un_lt; auto|rewrite rk_un by auto; exact Hlt].
    rewrite C_slope; auto; [apply un_lt; auto|rewrite rk_un by auto; exact Hlt].
Qed.

(** a point that is dominated in the projection does not matter *)
Lemma dropped_zero j l : (j < length Y)%nat -> j <> i -> ~ In j idx -> (l < length ref)%nat -> hessf Y ref d i k j l = 0.
Proof using All.
  intros Hj Hji Hnin Hl. unfold hessf. destruct (Nat.eqb_spec l k) as [|Hne]; auto.
  destruct (Nat.eqb_spec j i) as [|_]; [contradiction|].
  destruct (ltb (coord Y j k) (coord Y i k)) eqn:E1; auto. apply ltb_true in E1.
  destruct (ltb (coord Y i l) (coord Y j l)) eqn:E2; auto. apply ltb_true in E2. cbn [andb].
  destruct (P4 j Hj E1) as (s & Hs & Hw & Hle). destruct (P3 s Hs) as (S1 & S2 & S3).
  set (a := nth s idx 0%nat) in *. rewrite Hlf in Hle by auto. rewrite S3 in Hle.
  assert (Haj : a <> j) by (intros <-; apply Hnin; apply nth_In; auto).
  assert (Epk : forall b x, pk Y k b x = coord Y b (rk x)).
  { intros b x. unfold pk. rewrite <- co_delete_at. unfold co. apply delete_coord. }
  assert (Hle' : forall x, (x < S d)%nat -> pk Y k a x <= pk Y k j x).
  { intros x Hx. specialize (Hle x Hx). rewrite !delete_coord in Hle. rewrite !Epk. exact Hle. }
  assert (Hul : (un k l < S d)%nat) by (apply un_lt; auto).
  set (c := pjoin (pk Y k j) (pk Y k i)).
  unfold slope_lt. rewrite (exc_dominated _ _ _ _ (drop (un k l) (pk Y k a))); [ring| |].
  - apply in_map. apply filter_In. split; [apply in_map, idxlt_In; auto|]. apply ltb_true.
    apply Rlt_le_trans with (pk Y k j (un k l)); [|apply Rmax_l].
    specialize (Hle' _ Hul). assert (coord Y a l <> coord Y j l) by (apply (proj1 HG); auto).
    rewrite !Epk, rk_un in * by auto. lra.
  - intros x Hx. unfold drop. destruct (Nat.ltb_spec x (un k l));
      (eapply Rle_trans; [apply Hle'; lia|apply Rmax_l]).
Qed.
End Column.

Lemma column_correct Y ref d i k : rows_ok Y ref -> length ref = S (S d) -> (d <= 3)%nat \/ (d = 4%nat /\ argsort_stable argsort) ->
  general_position Y ref -> inside Y ref -> above_all minf Y ref -> (i < length Y)%nat -> (k < length ref)%nat ->
  ~ (exists j, (j < length Y)%nat /\ dominates (row Y j) (row Y i)) ->
  exists col, hess_column minf argsort (length ref) Y ref i k = Ok col /\ shape (length Y) (length ref) col /\
    forall j l, (j < length Y)%nat -> (l < length ref)%nat -> coord col j l = hessf Y ref d i k j l.
Proof.
  intros Hr Hd Hd3 HG Hin Hab Hi Hk Hnd.
  destruct (project_spec Y ref k i (S d) Hr Hi Hd ltac:(lia) ltac:(lia)) as (front_ & idx & E & P1 & P2 & P3 & P4 & P5 & _).
  unfold hess_column. rewrite E. cbn [bind].
  destruct (own_block Y ref d i k Hr Hd Hd3 HG Hin Hab Hi Hk Hnd front_ idx P1 P2 P3 P4 P5) as (nd & g & own & E1 & E2 & E3 & L1 & V1).
  destruct (off_blocks Y ref d i k Hr Hd Hd3 HG Hin Hab Hi Hk Hnd front_ idx P1 P2 P3 P4 P5) as (g2 & g4 & E4 & E5 & L4 & V4).
  rewrite E1. cbn [bind]. rewrite E2. cbn [bind]. cbv zeta. rewrite E3. cbn [bind].
  unfold assign_block. rewrite L1, Nat.eqb_refl. cbn [bind]. rewrite E4. cbn [bind]. rewrite E5. cbn [bind].
  assert (Hiin : ~ In i idx).
  { intros Hc. apply In_nth with (d := 0%nat) in Hc as (s & Hs & Es). destruct (P3 s Hs) as (_ & Hlt & _). rewrite Es in Hlt. lra. }
  set (f := fun j => scatter (if (j =? i)%nat then own else repeat nzero (length ref)) idx g4 j).
  assert (Hf : forall j, (j < length Y)%nat -> length (f j) = length ref /\
     forall l, (l < length ref)%nat -> nth l (f j) 0 = hessf Y ref d i k j l).
  { intros j Hj. unfold f. destruct (in_dec Nat.eq_dec j idx) as [Hin'|Hnin].
    - apply In_nth with (d := 0%nat) in Hin' as (s & Hs & <-). rewrite scatter_nth by auto.
      rewrite (nth_indep g4 _ []) by lia. apply V4; auto.
    - rewrite scatter_out by auto. destruct (Nat.eqb_spec j i) as [->|Hne]; [split; auto|].
      split; [apply repeat_length|]. intros l Hl.
      rewrite (dropped_zero Y ref d i k Hr Hd Hd3 HG Hin Hab Hi Hk Hnd front_ idx P1 P2 P3 P4 P5); auto. apply nth_repeat_z. }
  exists (map f (seq 0 (length Y))). split; auto. split.
  - split; [rewrite map_length, seq_length; auto|]. intros r Hr'. apply in_map_iff in Hr' as (j & <- & Hj). apply in_seq in Hj.
    apply Hf. lia.
  - intros j l Hj Hl. unfold coord. rewrite nth_map_seq by auto. apply Hf; auto.
Qed.

Definition hentry (H : list (list (list (list R)))) (i k j l : nat) : R := nth l (nth j (nth k (nth i H []) []) []) 0.

Lemma map_res_ex {A B} (f : A -> res B) (Q : A -> B -> Prop) l : (forall a, In a l -> exists b, f a = Ok b /\ Q a b) ->
  exists bs, map_res f l = Ok bs /\ Forall2 Q l bs.
Proof.
  induction l as [|a l IH]; intros Hf; simpl.
  - exists []. auto.
  - destruct (Hf a ltac:(simpl; auto)) as (b & E & Hq). destruct IH as (bs & E' & HF); [intros; apply Hf; simpl; auto|].
    exists (b :: bs). rewrite E. cbn [bind]. rewrite E'. auto.
Qed.
Lemma Forall2_seq {B} (Q : nat -> B -> Prop) s n bs d : Forall2 Q (seq s n) bs -> length bs = n /\ forall i, (i < n)%nat -> Q (s + i)%nat (nth i bs d).
Proof.
  revert s bs. induction n as [|n IH]; intros s bs HF; simpl in HF; inversion HF; subst.
  - split; auto. intros; lia.
  - destruct (IH _ _ H3) as [L Hq]. split; [simpl; lia|]. intros [|i] Hi; simpl; [rewrite Nat.add_0_r; auto|].
    rewrite Nat.add_succ_r. apply Hq. lia.
Qed.

Lemma hess_correct Y ref : Y <> [] -> rows_ok Y ref -> (2 <= length ref <= 5)%nat \/ (length ref = 6%nat /\ argsort_stable argsort) ->
  general_position Y ref -> inside Y ref -> above_all minf Y ref ->
  exists H, compute_HVdY2 minf argsort (length ref) Y ref = Ok H /\
    length H = length Y /\ (forall i, (i < length Y)%nat -> length (nth i H []) = length ref /\
      forall k, (k < length ref)%nat -> shape (length Y) (length ref) (nth k (nth i H []) [])) /\
    forall i k j l, (i < length Y)%nat -> (k < length ref)%nat -> (j < length Y)%nat -> (l < length ref)%nat ->
      is_hess Y ref i k j l (hentry H i k j l) /\
      ((exists a, (a < length Y)%nat /\ dominates (row Y a) (row Y i)) -> hentry H i k j l = 0).
Proof.
  intros HY Hr H2 HG Hin Hab. destruct (length ref) as [|[|d]] eqn:Hd; try lia.
  assert (Hd3 : (d <= 3)%nat \/ (d = 4%nat /\ argsort_stable argsort)).
  { destruct H2 as [H2|[H2 Hst]]; [left; lia|right; split; [lia|auto]]. }
  destruct (nondominated_spec Y (length ref) HY ltac:(lia) Hr) as (nd & E & N1 & N2 & N3 & N4 & N5).
  unfold compute_HVdY2. rewrite <- Hd. rewrite forallb_rows by auto. cbn [negb]. rewrite E. cbn [bind].
  set (Q := fun (i : nat) (cols : list (list (list R))) => length cols = length ref /\ forall k, (k < length ref)%nat ->
     shape (length Y) (length ref) (nth k cols []) /\
     forall j l, (j < length Y)%nat -> (l < length ref)%nat -> is_hess Y ref i k j l (coord (nth k cols []) j l) /\
      ((exists a, (a < length Y)%nat /\ dominates (row Y a) (row Y i)) -> coord (nth k cols []) j l = 0)).
  assert (Hcol : forall i, In i (seq 0 (length Y)) -> exists cols,
    (if existsb (Nat.eqb i) nd then map_res (hess_column minf argsort (length ref) Y ref i) (seq 0 (length ref))
      else Ok (repeat (repeat (repeat nzero (length ref)) (length Y)) (length ref))) = Ok cols /\ Q i cols).
  { intros i Hi. apply in_seq in Hi. destruct (existsb (Nat.eqb i) nd) eqn:Eb.
    - apply existsb_exists in Eb as (i' & Hi' & Ei). apply Nat.eqb_eq in Ei. subst i'.
      destruct (map_res_ex (hess_column minf argsort (length ref) Y ref i)
        (fun k col => shape (length Y) (length ref) col /\ forall j l, (j < length Y)%nat -> (l < length ref)%nat -> coord col j l = hessf Y ref d i k j l)
        (seq 0 (length ref))) as (cols & Ec & HF).
      { intros k Hk. apply in_seq in Hk. destruct (column_correct Y ref d i k) as (col & Ec & Hs & Hv); auto; try lia; eauto. }
      exists cols. split; auto. apply (Forall2_seq _ _ _ _ []) in HF as [L Hq]. split; auto.
      intros k Hk. specialize (Hq k Hk). destruct Hq as [Hs Hv]. split; auto. intros j l Hj Hl. split.
      + rewrite Hv by auto. apply hess_true; auto; lia.
      + intros Hdm. exfalso. apply (N4 i Hi' Hdm).
    - exists (repeat (repeat (repeat nzero (length ref)) (length Y)) (length ref)). split; auto.
      assert (Hnr : forall A (x dd : A) n k, (k < n)%nat -> nth k (repeat x n) dd = x).
      { clear. intros A x dd n. induction n; intros [|k] Hk; simpl; try lia; auto. apply IHn. lia. }
      split; [apply repeat_length|]. intros k Hk. rewrite Hnr by auto. split.
      + split; [apply repeat_length|]. intros r Hr'. apply repeat_spec in Hr'. subst. apply repeat_length.
      + intros j l Hj Hl. unfold coord. rewrite Hnr by auto. rewrite Hnr by auto. split; auto.
        (* the gradient of a dominated point vanishes nearby *)
        assert (Hnin : ~ In i nd).
        { intros Hc. assert (existsb (Nat.eqb i) nd = true); [|congruence]. apply existsb_exists. exists i. split; auto. apply Nat.eqb_refl. }
        destruct (N3 i ltac:(lia)) as (a & Ha' & Hw & Hle). assert (Hai : a <> i) by (intros ->; auto).
        assert (Hal : (a < length Y)%nat) by auto.
        destruct (safe_gap Y ref d Hd HG Hin j l Hj Hl) as (e & He & Hsafe). exists e. split; auto.
        intros t g g' Ht Hg Hg'.
        assert (Hz : gradf Y ref i k = 0).
        { apply (gradf_dominated Y ref i a k); auto; try lia; [split; auto|]. apply (proj1 HG); auto; lia. }
        assert (Hlen' : forall b, (b < length Y)%nat -> length (nth b Y []) = length ref) by (intros; apply Hr, nth_In; auto).
        assert (Hz' : gradf (set_coord Y j l t) ref i k = 0).
        { destruct (Hsafe t Ht) as [Hs1 Hs2].
          assert (Hcc : forall c, (c < length ref)%nat -> coord (set_coord Y j l t) a c < coord (set_coord Y j l t) i c).
          { intros c Hc. assert (Hlt : coord Y a c < coord Y i c).
            { assert (coord Y a c <> coord Y i c) by (apply (proj1 HG); auto; lia). specialize (Hle c). unfold row in Hle.
              rewrite Hlen' in Hle by auto. specialize (Hle Hc). unfold coord in *. lra. }
            rewrite !(coord_set Y ref Hr) by auto.
            destruct (Nat.eqb_spec c l) as [->|Hcl]; [|rewrite !andb_false_r; auto]. rewrite !andb_true_r.
            destruct (Nat.eqb_spec a j) as [->|Haj], (Nat.eqb_spec i j) as [->|Hij]; try congruence; auto.
            - destruct (Hs2 i ltac:(lia) ltac:(auto)); lra.
            - destruct (Hs2 a Hal ltac:(auto)); lra. }
          assert (Hrs : rows_ok (set_coord Y j l t) ref) by (apply rows_set_coord; auto).
          assert (Hll : length (set_coord Y j l t) = length Y) by apply set_coord_length.
          assert (Hrl : forall b, (b < length Y)%nat -> length (nth b (set_coord Y j l t) []) = length ref).
          { intros b Hb. apply Hrs, nth_In. rewrite Hll; auto. }
          apply (gradf_dominated _ ref i a k); auto; rewrite ?Hll; auto; try lia.
          - unfold row. split; [rewrite !Hrl; auto; lia|]. rewrite Hrl by auto. intros c Hc. apply Rlt_le. apply (Hcc c Hc).
          - specialize (Hcc k Hk). lra. }
        assert (Eg : g = gradf Y ref i k).
        { apply (partial_unique Y ref i k); auto; try lia. apply slope_partial; try lia. apply two_sided_slope; auto; try lia.
          - apply Hin; auto. lia.
          - apply (proj1 HG); auto; lia. }
        assert (Eg' : g' = gradf (set_coord Y j l t) ref i k).
        { apply (partial_unique (set_coord Y j l t) ref i k); auto.
          - apply rows_set_coord; auto.
          - rewrite set_coord_length; lia.
          - apply perturbed_partial; auto; try lia. apply Hsafe. exact Ht. }
        rewrite Eg, Eg', Hz, Hz'. numR. ring. }
  destruct (map_res_ex _ Q (seq 0 (length Y)) Hcol) as (Hm & EH & HF).
  exists Hm. split; [exact EH|]. apply (Forall2_seq _ _ _ _ []) in HF as [L Hq]. split; auto. split.
  - intros i Hi. destruct (Hq i Hi) as [Q1 Q2]. split; auto. intros k Hk. apply Q2; auto.
  - intros i k j l Hi Hk Hj Hl. destruct (Hq i Hi) as [Q1 Q2]. destruct (Q2 k Hk) as [_ Q3]. apply Q3; auto.
Qed.
End Code.
