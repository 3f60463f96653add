(** Property theorems: reading the data of a benchmark run. *)
From Coq Require Import List Arith Bool Reals ZArith Lia Permutation Sorting.Sorted.
From Verif Require Import Exn ListAux StateModel StateProof NewtonModel RefModel RefSpec RefProof RefTop RdModel RdSpec RdProof PropsRef.
Import ListNotations.
Open Scope nat_scope.

(** two clusters, five points of which one is an outlier; the second direction is missing *)
Definition ex_fs : files := mkFiles (Some [[1; 2; 2]%Z])
  (fun k => match k with Some 1 => Some [[0%R; 1%R]; [1%R; 0%R]] | Some 2 => Some [[5%R; 6%R]; [6%R; 5%R]; [7%R; 4%R]] | _ => None end)
  (fun k => match k with 1 => Some [[Some 1%R; Some 1%R]] | _ => None end)
  (Some [[1%R]; [2%R]; [3%R]; [4%R]; [5%R]]) (Some [[1%R; 1%R]; [2%R; 2%R]; [3%R; 3%R]; [4%R; 4%R]; [5%R; 5%R]])
  (Some [[1%Z]; [2%Z]; [0%Z]; [1%Z]; [2%Z]]).
Definition ex_sample (i : nat) (r : list (list R)) : list (list R) := at_rows (seq 0 3000) r.
Lemma ex_sample_ok : sample_ok ex_sample.
Proof. intros i r H. exists (seq 0 3000). split. apply seq_NoDup. split. apply seq_length. split; auto. intros j Hj. apply in_seq in Hj. lia. Qed.
Definition ex_d : rdata := mkRD [(0, [[0%R; 1%R]; [1%R; 0%R]]); (1, [[5%R; 6%R]; [6%R; 5%R]; [7%R; 4%R]])]
  [[1%R]; [2%R]; [4%R]; [5%R]] [[1%R; 1%R]; [2%R; 2%R]; [4%R; 4%R]; [5%R; 5%R]] [[0; 2]; [1; 3]]
  (Some [(0, [Some 1%R; Some 1%R]); (1, [Some 1%R; Some 1%R])]).
Example ex_read : read_data ex_sample ex_fs = Ok ex_d.
Proof. reflexivity. Qed.

(** * C137 *)
(** decision vectors, objective vectors and labels stay aligned; outliers are gone; the first
    points are kept *)
Theorem C137_population : forall sample fs d, sample_ok sample -> read_data sample fs = Ok d ->
  exists X Y L k, population fs X Y L /\ length X = length L /\ length Y = length L /\ 0 < k <= length (inliers L) /\
  d_x d = at_rows (firstn k (inliers L)) X /\ d_y d = at_rows (firstn k (inliers L)) Y /\
  forall p, In p (firstn k (inliers L)) -> p < length L /\ nth p L 0%Z <> 0%Z /\ nth p L 0%Z <> (-1)%Z.
Proof.
  intros sample fs d Hs H. destruct (read_spec sample fs Hs d H) as (n & ref & eta & X & Y & L & _ & _ & _ & HP & LX & LY & _ & HI & HD).
  assert (Pos : 0 < length (inliers L)) by (destruct (inliers L); [congruence|simpl; lia]).
  assert (Q : forall k p, In p (firstn k (inliers L)) -> p < length L /\ nth p L 0%Z <> 0%Z /\ nth p L 0%Z <> (-1)%Z).
  { intros k p Hp. assert (Hp' : In p (inliers L)). { rewrite <- (firstn_skipn k (inliers L)). apply in_app_iff. auto. } unfold inliers in Hp'. apply filter_In in Hp'.
    destruct Hp' as [A B]. apply in_seq in A. apply andb_prop in B. destruct B as [B C]. apply negb_true_iff, Z.eqb_neq in B. apply negb_true_iff, Z.eqb_neq in C. split; auto. lia. }
  assert (FM : forall k Z, firstn k (at_rows (inliers L) Z) = at_rows (firstn k (inliers L)) Z) by (intros; unfold at_rows; apply firstn_map).
  cbv zeta in HD. destruct HD as [[_ ->]|(_ & _ & _ & k & Hk & ->)].
  - exists X, Y, L, (length (inliers L)). split; auto. split; auto. split; auto. split; [lia|].
    split. rewrite firstn_all. auto. split. rewrite firstn_all. auto. apply Q.
  - exists X, Y, L, k. split; auto. split; auto. split; auto. split. destruct (_ <? _); lia.
    cbn [d_x d_y]. rewrite !FM. split; auto. split; auto. apply Q.
Qed.
Print Assumptions C137_population.
(** the index sets contain every point exactly once; two points are together exactly if they have
    the same label, or all points are together *)
Theorem C137_groups : forall sample fs d, sample_ok sample -> read_data sample fs = Ok d ->
  exists X Y L k, population fs X Y L /\ d_y d = at_rows (firstn k (inliers L)) Y /\
  covers (d_idx d) (length (d_y d)) /\
  ((exists g, d_idx d = [g]) \/
   forall g i, In g (d_idx d) -> In i g -> forall j, In j g <->
     j < length (d_y d) /\ nth (nth j (inliers L) 0) L 0%Z = nth (nth i (inliers L) 0) L 0%Z) /\
  forall g, In g (d_idx d) -> g <> [] /\ StronglySorted lt g.
Proof.
  intros sample fs d Hs H. destruct (read_spec sample fs Hs d H) as (n & ref & eta & X & Y & L & _ & _ & _ & HP & LX & LY & _ & HI & HD).
  assert (Pos : 0 < length (inliers L)) by (destruct (inliers L); [congruence|simpl; lia]).
  cbv zeta in HD. destruct HD as [[_ ->]|(_ & _ & _ & k & Hk & ->)]; cbn [d_idx d_y].
  - set (lab := map (fun p => (nth p L 0 - 1)%Z) (inliers L)). assert (LL : length lab = length (inliers L)) by (unfold lab; apply map_length).
    exists X, Y, L, (length (inliers L)). split; auto. rewrite firstn_all. split; auto. unfold at_rows. rewrite map_length. split. rewrite <- LL. apply groups_cover.
    split.
    + right. intros g i Hg Hi j. destruct (groups_spec lab g Hg) as (_ & _ & G). rewrite (G i Hi j). rewrite LL.
      assert (Hi' : i < length (inliers L)) by (rewrite <- LL; apply (proj1 (G i Hi i)); auto).
      assert (E : forall q, q < length (inliers L) -> nth q lab 0%Z = (nth (nth q (inliers L) 0%nat) L 0 - 1)%Z).
      { intros q Hq. unfold lab. rewrite (nth_map_default _ _ _ 0) by auto. auto. }
      split; intros [A B]; (split; [auto|]).
      * rewrite !E in B by auto. lia.
      * rewrite !E by auto. lia.
    + intros g Hg. destruct (groups_spec lab g Hg) as (A & B & _). auto.
  - assert (Kp : 0 < k <= length (inliers L)) by (destruct (_ <? _); lia).
    exists X, Y, L, k. split; auto. unfold at_rows. rewrite firstn_map. split; auto. rewrite map_length, firstn_length_le by lia. split.
    + unfold covers. simpl. rewrite app_nil_r. auto.
    + split. left. eauto. intros g [<-|[]]. split. destruct k; [lia|discriminate]. apply StronglySorted_seq.
Qed.
Print Assumptions C137_groups.
Example C137_meets : sample_ok ex_sample /\ read_data ex_sample ex_fs = Ok ex_d /\ length (d_y ex_d) = 4 /\ length (d_idx ex_d) = 2.
Proof. split. apply ex_sample_ok. auto. Qed.

(** * C138 *)
(** what the reference set requires of the clusters of the population always holds *)
Theorem C138_fits : forall sample fs d, sample_ok sample -> read_data sample fs = Ok d -> fits (d_idx d) (map snd (d_ref d)).
Proof.
  intros sample fs d Hs H. destruct (read_spec sample fs Hs d H) as (n & ref & eta & X & Y & L & _ & _ & _ & _ & _ & _ & _ & HI & HD).
  cbv zeta in HD. destruct HD as [[HF ->]|(_ & _ & HS & k & Hk & ->)]; cbn [d_idx d_ref]; auto.
  split; auto. intros g c [<-|[]] [<-|[]]. cbn [snd]. rewrite seq_length. unfold size in *. destruct (Nat.ltb_spec (length (concat (map snd ref))) (length (inliers L))); lia.
Qed.
Print Assumptions C138_fits.
(** the components are merged exactly if the clusters do not fit; then there are no directions *)
Theorem C138_merged : forall sample fs d, sample_ok sample -> read_data sample fs = Ok d ->
  exists n comps X Y L, ids fs n /\ population fs X Y L /\
  keys comps = filter (readable fs n) (seq 0 n) /\
  (forall i r, In (i, r) comps -> exists t, ref_table fs n i = Some t /\ thinned t r) /\
  (fits (groups (map (fun p => (nth p L 0 - 1)%Z) (inliers L))) (map snd comps) -> d_ref d = comps) /\
  (~ fits (groups (map (fun p => (nth p L 0 - 1)%Z) (inliers L))) (map snd comps) ->
     d_ref d = [(0, concat (map snd comps))] /\ length (d_idx d) = 1 /\ d_eta d = None).
Proof.
  intros sample fs d Hs H. destruct (read_spec sample fs Hs d H) as (n & ref & eta & X & Y & L & HN & _ & HL & HP & _ & _ & _ & HI & HD).
  exists n, ref, X, Y, L. split; auto. split; auto. destruct HL as (K & C & _). split; auto. split; auto.
  cbv zeta in HD. destruct HD as [[HF ->]|(HF & _ & HS & k & Hk & ->)]; cbn [d_idx d_ref d_eta]; split; intros; auto; contradiction.
Qed.
Print Assumptions C138_merged.
(** the same files with three reference points fewer: merging *)
Definition ex_fs2 : files := mkFiles (f_comp ex_fs)
  (fun k => match k with Some 1 => Some [[0%R; 1%R]] | Some 2 => Some [[5%R; 6%R]] | _ => None end) (f_eta ex_fs) (f_x ex_fs) (f_y ex_fs) (f_lab ex_fs).
Example C138_meets : sample_ok ex_sample /\ read_data ex_sample ex_fs = Ok ex_d /\
  read_data ex_sample ex_fs2 = Ok (mkRD [(0, [[0%R; 1%R]; [5%R; 6%R]])] [[1%R]] [[1%R; 1%R]] [[0]] None).
Proof. split. apply ex_sample_ok. auto. Qed.

(** * C139 *)
(** all inliers are kept if they are not more than the reference points (or the clusters fit);
    otherwise a single point is left *)
Theorem C139_kept_partial : forall sample fs d, sample_ok sample -> read_data sample fs = Ok d ->
  exists X Y L, population fs X Y L /\
  (length (d_y d) = length (inliers L) \/ length (d_y d) = 1 /\ size (map snd (d_ref d)) < length (inliers L)).
Proof.
  intros sample fs d Hs H. destruct (read_spec sample fs Hs d H) as (n & ref & eta & X & Y & L & HN & _ & HL & HP & _ & _ & _ & HI & HD).
  assert (Pos : 0 < length (inliers L)) by (destruct (inliers L); [congruence|simpl; lia]).
  exists X, Y, L. split; auto. cbv zeta in HD. destruct HD as [[HF ->]|(HF & _ & HS & k & Hk & ->)]; cbn [d_y d_ref].
  - left. unfold at_rows. apply map_length.
  - unfold at_rows. rewrite firstn_length, map_length. cbn [map snd]. unfold size in *. cbn [concat]. rewrite app_nil_r.
    destruct (Nat.ltb_spec (length (concat (map snd ref))) (length (inliers L))); subst k; lia.
Qed.
Print Assumptions C139_kept_partial.
(** so it is not true that as many points are kept as there are reference points: four points,
    two reference points, one point left *)
Theorem C139_kept_refuted : exists sample fs d, sample_ok sample /\ read_data sample fs = Ok d /\
  exists X Y L, population fs X Y L /\ length (d_y d) <> Nat.min (length (inliers L)) (size (map snd (d_ref d))).
Proof.
  exists ex_sample, ex_fs2. eexists. split. apply ex_sample_ok. split. reflexivity.
  exists [[1%R]; [2%R]; [3%R]; [4%R]; [5%R]], [[1%R; 1%R]; [2%R; 2%R]; [3%R; 3%R]; [4%R; 4%R]; [5%R; 5%R]], [1; 2; 0; 1; 2]%Z.
  split. split; auto. split; auto. exists [[1%Z]; [2%Z]; [0%Z]; [1%Z]; [2%Z]]. auto. cbn. discriminate.
Qed.
Print Assumptions C139_kept_refuted.
Example C139_meets : sample_ok ex_sample /\ read_data ex_sample ex_fs = Ok ex_d /\ length (d_y ex_d) = 4.
Proof. split. apply ex_sample_ok. auto. Qed.

(** * C140 *)
(** every reference point returned is a row of one of the files, components have at most 3000 rows before merging *)
Theorem C140_reference : forall sample fs d i r, sample_ok sample -> read_data sample fs = Ok d -> In (i, r) (d_ref d) ->
  exists n, ids fs n /\ forall q, In q r -> exists j t, j < n /\ ref_table fs n j = Some t /\ In q t.
Proof.
  intros sample fs d i r Hs H Hr. destruct (read_spec sample fs Hs d H) as (n & comps & eta & X & Y & L & HN & _ & (K & C & _) & _ & _ & _ & _ & _ & HD).
  exists n. split; auto. intros q Hq.
  assert (HC : exists j c, In (j, c) comps /\ In q c).
  { cbv zeta in HD. destruct HD as [[_ ->]|(_ & _ & _ & k & _ & ->)]; cbn [d_ref] in Hr; [eauto|]. destruct Hr as [[= <- <-]|[]].
    apply in_concat in Hq. destruct Hq as (c & Hc & Hq). apply in_map_iff in Hc. destruct Hc as ([j c'] & <- & Hc). eauto. }
  destruct HC as (j & c & Hc & Hq'). destruct (C j c Hc) as (t & E1 & E2). exists j, t.
  assert (Hj : In j (keys comps)) by (apply in_map_iff; exists (j, c); auto). rewrite K in Hj. apply filter_In in Hj. destruct Hj as [Hj _]. apply in_seq in Hj.
  split. lia. split; auto. unfold thinned in E2. destruct (3000 <=? length t); [|subst; auto]. destruct E2 as (_ & ix & _ & _ & E5 & ->).
  unfold at_rows in Hq'. apply in_map_iff in Hq'. destruct Hq' as (m & <- & Hm). apply nth_In. auto.
Qed.
Print Assumptions C140_reference.
(** the reference set has all the rows of the readable files, at most 3000 of each *)
Theorem C140_size : forall sample fs d, sample_ok sample -> read_data sample fs = Ok d ->
  exists n, ids fs n /\ size (map snd (d_ref d)) = list_sum (map (fun i => Nat.min 3000 (table_rows fs n i)) (seq 0 n)).
Proof.
  intros sample fs d Hs H. destruct (read_spec sample fs Hs d H) as (n & comps & eta & X & Y & L & HN & _ & (K & C & _) & _ & _ & _ & _ & _ & HD).
  exists n. split; auto. transitivity (size (map snd comps)).
  { cbv zeta in HD. destruct HD as [[_ ->]|(_ & _ & _ & k & _ & ->)]; cbn [d_ref]; auto. cbn [map snd]. unfold size. cbn [concat]. rewrite app_nil_r. auto. }
  clear -K C. revert comps K C. generalize (seq 0 n). unfold size, keys, table_rows. induction l as [|i l IH]; intros comps K C; cbn [map filter] in *.
  - destruct comps; [auto|discriminate].
  - unfold readable in K at 1. cbn [list_sum fold_right]. destruct (ref_table fs n i) as [t|] eqn:E.
    + destruct comps as [|[i' r] comps]; [discriminate|]. injection K as -> K. cbn [map concat snd]. rewrite app_length.
      rewrite (IH comps K) by (intros; apply C; simpl; auto). f_equal.
      destruct (C i r) as (t' & E1 & E2). simpl; auto. assert (t' = t) by congruence. subst t'. unfold thinned in E2.
      destruct (Nat.leb_spec 3000 (length t)). rewrite Nat.min_l by auto. tauto. subst r. rewrite Nat.min_r; lia.
    + rewrite Nat.min_0_r. apply IH; auto.
Qed.
Print Assumptions C140_size.
Example C140_meets : sample_ok ex_sample /\ read_data ex_sample ex_fs = Ok ex_d /\ In (1, [[5%R; 6%R]; [6%R; 5%R]; [7%R; 4%R]]) (d_ref ex_d) /\ size (map snd (d_ref ex_d)) = 5.
Proof. split. apply ex_sample_ok. split. auto. split; auto. simpl. auto. Qed.

(** * C141 *)
(** with well-formed files it succeeds exactly if the missing directions can be filled in *)
Theorem C141_succeeds_partial : forall sample fs n, sample_ok sample -> well_formed fs n ->
  (exists d, read_data sample fs = Ok d) <-> fillable fs n.
Proof.
  intros sample fs n Hs (HN & (X & Y & L & HP & LX & LY & HI) & HR & HH & HW). split.
  - intros (d & H). destruct (read_spec sample fs Hs d H) as (n' & comps & eta & _ & _ & _ & HN' & HF & _).
    destruct HN as (row & t & E1 & E2), HN' as (row' & t' & E1' & E2'). assert (row = row') by congruence. subst. auto.
  - intros HF. apply (read_total sample fs Hs n X Y L); auto.
Qed.
Print Assumptions C141_succeeds_partial.
(** directions returned: one for each component, that of the nearest cluster before it with a
    file, without NaN *)
Theorem C141_directions : forall sample fs d e, sample_ok sample -> read_data sample fs = Ok d -> d_eta d = Some e ->
  keys e = keys (d_ref d) /\ forall i, In i (keys (d_ref d)) ->
    exists v, lookup i e = Some v /\ direction fs i = Some v /\ ~ In None v.
Proof.
  intros sample fs d e Hs H He. destruct (read_spec sample fs Hs d H) as (n & comps & eta & X & Y & L & HN & _ & (K & C & D) & _ & _ & _ & _ & _ & HD).
  cbv zeta in HD. destruct HD as [[_ ->]|(_ & _ & _ & k & _ & ->)]; cbn [d_eta d_ref] in *; [|discriminate].
  unfold drop_nan in He. destruct eta as [dd|]; [|discriminate]. destruct (existsb _ dd) eqn:EX; [discriminate|]. injection He as <-.
  destruct D as (D1 & _ & D3). split; auto. intros i Hi. destruct (D3 i Hi) as (v & E1 & E2). exists v. split; auto. split; auto.
  intros HIn. assert (existsb (fun e => existsb isnan (snd e)) dd = true); [|congruence]. apply existsb_exists.
  unfold lookup in E1. destruct (find _ dd) as [[i' v']|] eqn:EF; [|discriminate]. injection E1 as <-. exists (i', v'). split. apply (find_some _ _ EF).
  apply existsb_exists. exists None. auto.
Qed.
Print Assumptions C141_directions.
(** no directions are returned only if the components are merged, the first one has no file, or
    some direction has a NaN entry *)
Theorem C141_none : forall sample fs d, sample_ok sample -> read_data sample fs = Ok d -> d_eta d = None ->
  exists n, ids fs n /\ (length (d_ref d) = 1 \/ (readable fs n 0 = true /\ no_eta fs 0) \/
  exists i v, In i (keys (d_ref d)) /\ direction fs i = Some v /\ In None v).
Proof.
  intros sample fs d Hs H He. destruct (read_spec sample fs Hs d H) as (n & comps & eta & X & Y & L & HN & _ & (K & C & D) & _ & _ & _ & _ & _ & HD).
  exists n. split; auto. cbv zeta in HD. destruct HD as [[_ ->]|(_ & _ & _ & k & _ & ->)]; cbn [d_eta d_ref] in *; [|auto].
  unfold drop_nan in He. destruct eta as [dd|]; [|tauto]. destruct (existsb _ dd) eqn:EX; [|discriminate]. right. right.
  destruct D as (D1 & _ & D3). apply existsb_exists in EX. destruct EX as ([i v] & Hin & Hn). cbn [snd] in Hn.
  assert (ND : NoDup (keys dd)). { rewrite D1, K. apply NoDup_filter, seq_NoDup. }
  assert (Hi : In i (keys dd)) by (apply in_map_iff; exists (i, v); auto). rewrite D1 in Hi. destruct (D3 i Hi) as (w & E1 & E2).
  assert (v = w).
  { clear -ND Hin E1. unfold keys, lookup in *. induction dd as [|[a b] dd IH]; [destruct Hin|]. simpl in *. inversion ND; subst. destruct Hin as [[= -> ->]|Hin].
    - rewrite Nat.eqb_refl in E1. simpl in E1. congruence.
    - destruct (Nat.eqb_spec a i) as [->|]; auto. exfalso. apply H1. apply in_map_iff. exists (i, v). auto. }
  subst w. exists i, v. split; auto. split; auto. apply existsb_exists in Hn. destruct Hn as (o & Ho & Hn). destruct o; [discriminate|]. auto.
Qed.
Print Assumptions C141_none.
(** it is not true that a missing direction file is harmless: if the one of the first cluster is
    missing, a second cluster makes the function raise TypeError; if a reference file is missing
    and the next cluster has no direction file, it raises KeyError *)
Definition ex_fs3 : files := mkFiles (f_comp ex_fs) (f_ref ex_fs) (fun k => match k with 2 => Some [[Some 1%R; Some 1%R]] | _ => None end) (f_x ex_fs) (f_y ex_fs) (f_lab ex_fs).
Definition ex_fs4 : files := mkFiles (f_comp ex_fs) (fun k => match k with Some 1 => None | _ => f_ref ex_fs k end) (f_eta ex_fs) (f_x ex_fs) (f_y ex_fs) (f_lab ex_fs).
Lemma ex_well fs : f_comp fs = f_comp ex_fs -> f_x fs = f_x ex_fs -> f_y fs = f_y ex_fs -> f_lab fs = f_lab ex_fs -> 
  (forall k t, f_ref fs k = Some t -> f_ref ex_fs k = Some t) -> f_ref fs (Some 2) <> None -> well_formed fs 2.
Proof.
  intros E1 E2 E3 E4 ER E5. split. exists [1; 2; 2]%Z, []. rewrite E1. auto. split.
  { exists [[1%R]; [2%R]; [3%R]; [4%R]; [5%R]], [[1%R; 1%R]; [2%R; 2%R]; [3%R; 3%R]; [4%R; 4%R]; [5%R; 5%R]], [1; 2; 0; 1; 2]%Z.
    split. split; auto. split; auto. exists [[1%Z]; [2%Z]; [0%Z]; [1%Z]; [2%Z]]. auto. cbn. repeat (split; auto). discriminate. }
  split. exists 1. split; auto. unfold readable, ref_table. cbn. destruct (f_ref fs (Some 2)); congruence.
  assert (W : forall k t, f_ref fs k = Some t -> t <> [] /\ forall a, In a t -> length a = 2).
  { intros k t H. apply ER in H. destruct k as [[|[|[|k]]]|]; cbn in H; try discriminate; injection H as <-; (split; [discriminate|]); intros a Ha; repeat (destruct Ha as [<-|Ha]; [auto|]); destruct Ha. }
  split. intros k t H. apply (W k t H). intros i j t u a b H1 H2 Ha Hb. rewrite (proj2 (W _ _ H1) a Ha), (proj2 (W _ _ H2) b Hb). auto.
Qed.
Theorem C141_missing_refuted :
  (exists sample fs n, sample_ok sample /\ well_formed fs n /\ read_data sample fs = Exn TypeError) /\
  (exists sample fs n, sample_ok sample /\ well_formed fs n /\ read_data sample fs = Exn KeyError).
Proof.
  split.
  - exists ex_sample, ex_fs3, 2. split. apply ex_sample_ok. split; [|reflexivity]. apply ex_well; auto. discriminate.
  - exists ex_sample, ex_fs4, 2. split. apply ex_sample_ok. split; [|reflexivity]. apply ex_well; auto. 2: discriminate. intros [[|[|k]]|] t H; cbn in *; auto. discriminate.
Qed.
Print Assumptions C141_missing_refuted.
Example C141_meets : sample_ok ex_sample /\ well_formed ex_fs 2 /\ fillable ex_fs 2 /\ d_eta ex_d = Some [(0, [Some 1%R; Some 1%R]); (1, [Some 1%R; Some 1%R])].
Proof.
  split. apply ex_sample_ok. split. apply ex_well; auto. discriminate. split; auto. split.
  - intros j _ H. discriminate.
  - intros i H1 _ _. destruct i; [|lia]. auto.
Qed.

(** * C142 *)
(** if all reference files are readable the keys are 0, 1, ..., as [ReferenceSet] needs *)
Theorem C142_keys : forall sample fs n d, sample_ok sample -> ids fs n -> (forall i, i < n -> readable fs n i = true) ->
  read_data sample fs = Ok d -> keys (d_ref d) = seq 0 (length (d_ref d)) /\ d_ref d <> [].
Proof.
  intros sample fs n d Hs HN HR H. destruct (read_spec sample fs Hs d H) as (n' & comps & eta & X & Y & L & HN' & _ & (K & C & D) & _ & _ & _ & NE & _ & HD).
  assert (n' = n). { destruct HN as (row & t & E1 & E2), HN' as (row' & t' & E1' & E2'). assert (row = row') by congruence. subst. auto. } subst n'.
  cbv zeta in HD. destruct HD as [[_ ->]|(_ & _ & _ & k & _ & ->)]; cbn [d_ref]; [|split; [auto|discriminate]]. split; auto.
  rewrite filter_all in K by (intros a Ha; apply in_seq in Ha; apply HR; lia).
  assert (E : length comps = n) by (rewrite <- (seq_length n 0), <- K; unfold keys; rewrite map_length; auto). rewrite E. auto.
Qed.
Print Assumptions C142_keys.
(** then the reference set built from the data can be matched to the population *)
Theorem C142_match : forall sample fs n d eta lsa hausdorff kmedoids n_obj, sample_ok sample -> ids fs n ->
  (forall i, i < n -> readable fs n i = true) -> read_data sample fs = Ok d ->
  lsa_ok lsa -> kmedoids_ok kmedoids ->
  (forall C m, (forall r, In r C -> length r = m) -> exists a, lsa C = Ok a) ->
  (forall u v, exists h, hausdorff u v = Ok h) ->
  (forall comp k, k <= length comp -> exists r, kmedoids comp k = Ok r) ->
  exists s s', new_refset (map snd (d_ref d)) eta (Some (d_idx d)) = Ok s /\ match_Y lsa hausdorff kmedoids n_obj s (d_y d) = Ok s' /\
  consistent s' /\ length (reference_set s') = length (d_y d).
Proof.
  intros sample fs n d eta lsa hausdorff kmedoids n_obj Hs HN HR H HL HK TL TH TK.
  destruct (C142_keys sample fs n d Hs HN HR H) as [_ NE]. pose proof (C138_fits sample fs d Hs H) as [F1 F2].
  destruct (C137_groups sample fs d Hs H) as (_ & _ & _ & _ & _ & _ & HC & _).
  set (ref := map snd (d_ref d)) in *. assert (NE' : ref <> []) by (unfold ref; destruct (d_ref d); [congruence|discriminate]).
  exists (mkRS ref eta (Some (d_idx d)) true (map (fun _ => None) ref) None).
  assert (W : wf (mkRS ref eta (Some (d_idx d)) true (map (fun _ => None) ref) None)) by (split; cbn; [rewrite map_length; auto|auto]).
  set (s := mkRS ref eta (Some (d_idx d)) true (map (fun _ => None) ref) None) in *.
  assert (PY : exists ix parts, partition_Y s (d_y d) = Ok (ix, parts) /\ covers ix (length (d_y d)) /\ length ix = length parts /\ length ix <= length ref /\ forall g c, In g ix -> In c ref -> length g <= length c).
  { unfold partition_Y. cbn [rs_ref rs_Yidx s]. destruct (Nat.eqb_spec (length ref) 1) as [E|NE1].
    - exists [seq 0 (length (d_y d))], [d_y d]. split; auto. split. unfold covers. simpl. rewrite app_nil_r. auto. split; auto. split. simpl. lia.
      intros g c [<-|[]] Hc. rewrite seq_length. assert (L1 : length (d_idx d) <= 1) by lia. pose proof (Permutation_length HC) as PL. rewrite seq_length in PL. rewrite <- PL.
      destruct (d_idx d) as [|g [|g' l]]; simpl in L1; [simpl; lia| |lia]. simpl. rewrite app_nil_r. apply F2; simpl; auto.
    - cbn [bind]. assert (T : forall ix, (forall g j, In g ix -> In j g -> j < length (d_y d)) -> exists parts, mapM (take_rows (d_y d)) ix = Ok parts /\ length parts = length ix).
      { induction ix as [|g ix IH]; intros Hix. exists []. auto. destruct IH as (ps & E & El). intros; eapply Hix; simpl; eauto.
        assert (TR : exists p, take_rows (d_y d) g = Ok p). { apply take_rows_exists. intros j Hj. apply (Hix g); simpl; auto. }
        destruct TR as (p & Ep). exists (p :: ps). cbn [mapM]. rewrite Ep. cbn [bind]. rewrite E. cbn [bind]. simpl. auto. }
      destruct (T (d_idx d)) as (parts & E & El).
      { intros g j Hg Hj. assert (HI : In j (seq 0 (length (d_y d)))). { eapply Permutation_in. exact HC. apply in_concat. eauto. } apply in_seq in HI. lia. }
      exists (d_idx d), parts. rewrite E. cbn [bind]. auto. }
  destruct PY as (ix & parts & EP & EC & EL & EN & ES).
  assert (MC : exists vs, match_components lsa hausdorff ref parts = Ok vs).
  { unfold match_components. destruct (Nat.ltb_spec (length ref) (length parts)); [lia|]. destruct (_ && _); [eauto|].
    assert (T : forall l, exists cost, mapM (fun r => mapM (hausdorff r) parts) l = Ok cost /\ forall r, In r cost -> length r = length parts).
    { assert (T0 : forall r ps, exists row, mapM (hausdorff r) ps = Ok row /\ length row = length ps).
      { intros r. induction ps as [|p ps (row & E & El)]. exists []. auto. destruct (TH r p) as (h & Eh). exists (h :: row). cbn [mapM]. rewrite Eh. cbn [bind]. rewrite E. cbn [bind]. simpl. auto. }
      induction l as [|r l (cost & E & El)]. exists []. split; auto. intros r [].
      destruct (T0 r parts) as (row & Er & Elr). exists (row :: cost). cbn [mapM]. rewrite Er. cbn [bind]. rewrite E. cbn [bind]. split; auto. intros q [<-|Hq]; auto. }
    destruct (T ref) as (cost & E & El). rewrite E. cbn [bind]. destruct (TL cost (length parts) El) as (a & Ea). rewrite Ea. cbn [bind]. eauto. }
  destruct MC as (vs & EV).
  destruct (C36_match_total lsa hausdorff kmedoids n_obj s (d_y d) ix parts vs HL HK W) as (s' & E'); auto.
  - intros C HC'. apply (TL C (length C)); auto.
  - intros k comp Hk Hcomp. cbn [rs_ref s] in Hcomp. apply nth_error_In in Hcomp.
    destruct (Nat.lt_ge_cases (nth k vs 0) (length ix)) as [Hlt|Hge]. apply ES; auto. apply nth_In; auto. rewrite nth_overflow by auto. simpl. lia.
  - exists s'. split. unfold new_refset, s. destruct ref; [congruence|auto]. split; auto.
    destruct (C36_match_consistent lsa hausdorff kmedoids n_obj s (d_y d) s' HL HK W (or_introl eq_refl) E') as (_ & ix' & _ & Hc1 & Hc2).
    destruct (match_spec lsa hausdorff kmedoids HL HK n_obj s (d_y d) s' W (or_introl eq_refl) E') as (ix'' & parts'' & vs'' & out & mi & A1 & A2 & A3 & A4 & A5 & A6 & A7 & A8 & A9).
    rewrite EP in A1. injection A1 as <- <-. destruct (A9 EC) as (LL & Hcons & _). split; auto. unfold reference_set. rewrite A6. auto.
Qed.
Print Assumptions C142_match.
(** it is not true in general: with an unreadable reference file the dictionary has no key 0, and
    [ReferenceSet] (line 31, [self._ref[0]]) raises KeyError *)
Definition ex_fs5 : files := mkFiles (f_comp ex_fs) (fun k => match k with Some 2 => Some [[5%R; 6%R]; [6%R; 5%R]; [7%R; 4%R]] | _ => None end)
  (fun k => Some [[Some 1%R; Some 1%R]]) (f_x ex_fs) (f_y ex_fs) (Some [[2%Z]; [2%Z]; [0%Z]; [0%Z]; [2%Z]]).
Theorem C142_keys_refuted : exists sample fs d, sample_ok sample /\ read_data sample fs = Ok d /\ d_ref d <> [] /\ lookup 0 (d_ref d) = None.
Proof. exists ex_sample, ex_fs5. eexists. split. apply ex_sample_ok. split. reflexivity. split. discriminate. reflexivity. Qed.
Print Assumptions C142_keys_refuted.
Example C142_meets : sample_ok ex_sample /\ ids ex_fs 2 /\ (forall i, i < 2 -> readable ex_fs 2 i = true) /\ read_data ex_sample ex_fs = Ok ex_d.
Proof. split. apply ex_sample_ok. split. exists [1; 2; 2]%Z, []. auto. split; auto. intros [|[|i]] H; auto. lia. Qed.
