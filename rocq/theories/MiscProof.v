(** Proofs about the helpers of MiscModel. *)
From Coq Require Import List Arith Bool Reals ZArith Lia Lra Psatz.
From Verif Require Import Num Exn ListAux MiscModel.
Import ListNotations.
Open Scope R_scope.

(** * reflection *)
Definition wave (y : R) : R :=
  let fr := y - IZR (Int_part y) in if Z.even (Int_part y) then fr else 1 - fr.

Lemma floor_bounds y : IZR (Int_part y) <= y < IZR (Int_part y) + 1.
Proof. destruct (base_Int_part y). lra. Qed.
Lemma floor_unique y z : IZR z <= y < IZR z + 1 -> Int_part y = z.
Proof.
  intros H. pose proof (floor_bounds y) as B.
  assert (IZR (Int_part y) < IZR (z + 1)) by (rewrite plus_IZR; lra).
  assert (IZR z < IZR (Int_part y + 1)) by (rewrite plus_IZR; lra).
  apply lt_IZR in H0, H1. lia.
Qed.

Lemma wave_range y : 0 <= wave y <= 1.
Proof. unfold wave. pose proof (floor_bounds y). destruct (Z.even _); lra. Qed.

(** [wave y] is [y] or [-y] up to an even shift *)
Lemma wave_congr y : exists k : Z, wave y = y + 2 * IZR k \/ wave y = - y + 2 * IZR k.
Proof.
  unfold wave. set (z := Int_part y). destruct (Z.even z) eqn:E.
  - apply Z.even_spec in E as (k & ->). exists (- k)%Z. left. rewrite mult_IZR, opp_IZR. ring.
  - assert (Z.Odd z) by (apply Z.odd_spec; rewrite <- Z.negb_even, E; reflexivity).
    destruct H as (k & Hk). exists (k + 1)%Z. right. rewrite plus_IZR. rewrite Hk, plus_IZR, mult_IZR. ring.
Qed.

(** and is determined by this *)
Lemma wave_unique y w : 0 <= w <= 1 -> (exists k : Z, w = y + 2 * IZR k \/ w = - y + 2 * IZR k) -> w = wave y.
Proof.
  intros Hw (k & Hk). destruct (wave_congr y) as (l & Hl). pose proof (wave_range y) as Hr.
  assert (Hint : forall a b : R, forall k : Z, 0 <= a <= 1 -> 0 <= b <= 1 -> (a = b + 2 * IZR k \/ a = - b + 2 * IZR k) -> a = b).
  { clear. intros a b k Ha Hb [E|E].
    - assert (H1 : IZR (-1) < IZR k) by (apply Rmult_lt_reg_l with 2; [lra|]; change (IZR (-1)) with (-1); lra).
      assert (H2 : IZR k < IZR 1) by (change (IZR 1) with 1; lra).
      apply lt_IZR in H1, H2. assert (k = 0%Z) by lia. subst k. rewrite E. simpl. ring.
    - assert (H1 : IZR (-1) < IZR k) by (change (IZR (-1)) with (-1); lra).
      assert (H2 : IZR k < IZR 2) by (change (IZR 2) with 2; lra).
      apply lt_IZR in H1, H2. assert (Hc : k = 0%Z \/ k = 1%Z) by lia. destruct Hc; subst k; simpl in E; lra. }
  destruct Hk as [Hk|Hk], Hl as [Hl|Hl].
  - apply (Hint _ _ (k - l)%Z Hw Hr). left. rewrite minus_IZR. lra.
  - apply (Hint _ _ (k + l)%Z Hw Hr). right. rewrite plus_IZR. lra.
  - apply (Hint _ _ (k + l)%Z Hw Hr). right. rewrite plus_IZR. lra.
  - apply (Hint _ _ (k - l)%Z Hw Hr). left. rewrite minus_IZR. lra.
Qed.

Lemma reflect1_wave lb ub x : lb < ub -> reflect1 lb ub x = Some (lb + (ub - lb) * wave ((x - lb) / (ub - lb))).
Proof.
  intros Hlt. unfold reflect1. destruct (Req_EM_T lb ub); [lra|]. f_equal. unfold wave.
  pose proof (floor_bounds ((x - lb) / (ub - lb))). rewrite Rabs_pos_eq by lra. reflexivity.
Qed.

Lemma reflect1_spec lb ub x : lb < ub -> exists r, reflect1 lb ub x = Some r /\ lb <= r <= ub /\
  exists k : Z, r = x + 2 * IZR k * (ub - lb) \/ r = 2 * lb - x + 2 * IZR k * (ub - lb).
Proof.
  intros Hlt. rewrite reflect1_wave by auto. eexists. split; [reflexivity|].
  pose proof (wave_range ((x - lb) / (ub - lb))). split; [nra|].
  destruct (wave_congr ((x - lb) / (ub - lb))) as (k & [E|E]); exists k; rewrite E; [left|right]; field; lra.
Qed.

Lemma reflect1_unique lb ub x r : lb < ub -> lb <= r <= ub ->
  (exists k : Z, r = x + 2 * IZR k * (ub - lb) \/ r = 2 * lb - x + 2 * IZR k * (ub - lb)) -> reflect1 lb ub x = Some r.
Proof.
  intros Hlt Hr (k & Hk). rewrite reflect1_wave by auto. f_equal.
  assert (E : (r - lb) / (ub - lb) = wave ((x - lb) / (ub - lb))).
  { apply wave_unique.
    - split; [apply Rmult_le_pos; [lra|left; apply Rinv_0_lt_compat; lra]|].
      apply Rmult_le_reg_r with (ub - lb); [lra|]. unfold Rdiv. rewrite Rmult_assoc, Rinv_l by lra. lra.
    - exists k. destruct Hk as [->| ->]; [left|right]; field; lra. }
  rewrite <- E. field. lra.
Qed.

Lemma reflect1_inside lb ub x : lb < ub -> lb <= x <= ub -> reflect1 lb ub x = Some x.
Proof. intros. apply reflect1_unique; auto. exists 0%Z. left. simpl. ring. Qed.

Lemma reflect1_period lb ub x k : lb < ub -> reflect1 lb ub (x + 2 * IZR k * (ub - lb)) = reflect1 lb ub x.
Proof.
  intros Hlt. destruct (reflect1_spec lb ub x Hlt) as (r & -> & Hr & j & Hj). apply reflect1_unique; auto.
  destruct Hj as [->| ->]; [exists (j - k)%Z|exists (j + k)%Z].
  - left. rewrite minus_IZR. ring.
  - right. rewrite plus_IZR. ring.
Qed.
Lemma reflect1_mirror lb ub x : lb < ub ->
  reflect1 lb ub (2 * lb - x) = reflect1 lb ub x /\ reflect1 lb ub (2 * ub - x) = reflect1 lb ub x.
Proof.
  intros Hlt. destruct (reflect1_spec lb ub x Hlt) as (r & -> & Hr & j & Hj).
  split; apply reflect1_unique; auto; destruct Hj as [->| ->].
  - exists j. right. ring.
  - exists j. left. ring.
  - exists (j + 1)%Z. right. rewrite plus_IZR. ring.
  - exists (j - 1)%Z. left. rewrite minus_IZR. ring.
Qed.

(** the reflection never increases a distance *)
Lemma reflect1_contract lb ub x y r s : lb < ub -> reflect1 lb ub x = Some r -> reflect1 lb ub y = Some s ->
  Rabs (r - s) <= Rabs (x - y).
Proof.
  intros Hlt Hx Hy.
  destruct (reflect1_spec lb ub x Hlt) as (r' & Ex & Hr & j & Hj). rewrite Hx in Ex. injection Ex as <-.
  destruct (reflect1_spec lb ub y Hlt) as (s' & Ey & Hs & k & Hk). rewrite Hy in Ey. injection Ey as <-.
  set (w := ub - lb) in *. assert (Hw : 0 < w) by (unfold w; lra).
  assert (Hrs : Rabs (r - s) <= w) by (apply Rabs_le; unfold w; lra).
  (* x - y is +-(r - s) or +-(r + s - 2 lb), up to a multiple of 2w *)
  assert (Hcase : exists z : Z, (x - y = (r - s) + 2 * IZR z * w \/ x - y = - (r - s) + 2 * IZR z * w
     \/ x - y = (r + s - 2 * lb) + 2 * IZR z * w \/ x - y = - (r + s - 2 * lb) + 2 * IZR z * w)).
  { destruct Hj as [Hj|Hj], Hk as [Hk|Hk].
    - exists (k - j)%Z. left. rewrite minus_IZR. lra.
    - exists (- k - j)%Z. right; right; left. rewrite minus_IZR, opp_IZR. lra.
    - exists (j + k)%Z. right; right; right. rewrite plus_IZR. lra.
    - exists (j - k)%Z. right; left. rewrite minus_IZR. lra. }
  assert (Hz : forall (u : R) (z : Z), Rabs u <= w -> Rabs u <= Rabs (u + 2 * IZR z * w)).
  { clear -Hw. intros u z Hu. destruct (Z.eq_dec z 0) as [->|Hne]; [simpl; rewrite Rmult_0_r, Rmult_0_l, Rplus_0_r; lra|].
    assert (Habs : 1 <= Rabs (IZR z)).
    { rewrite <- abs_IZR. change 1 with (IZR 1). apply IZR_le. lia. }
    pose proof (Rabs_triang_inv (2 * IZR z * w) (- u)) as T. rewrite Rabs_Ropp in T.
    replace (2 * IZR z * w - - u) with (u + 2 * IZR z * w) in T by ring.
    rewrite !Rabs_mult, (Rabs_pos_eq 2), (Rabs_pos_eq w) in T by lra. nra. }
  destruct Hcase as (z & [E|[E|[E|E]]]); rewrite E.
  - apply Hz; auto.
  - rewrite <- (Rabs_Ropp (r - s)). apply Hz. rewrite Rabs_Ropp; auto.
  - assert (Hsum : 0 <= r + s - 2 * lb <= 2 * w) by (unfold w; lra).
    assert (Hd : Rabs (r - s) <= r + s - 2 * lb /\ Rabs (r - s) <= 2 * w - (r + s - 2 * lb)).
    { unfold Rabs. destruct (Rcase_abs (r - s)); unfold w; lra. }
    destruct (Z_le_gt_dec 0 z) as [Hz0|Hz0].
    + apply IZR_le in Hz0. pose proof (Rle_abs (r + s - 2 * lb + 2 * IZR z * w)). nra.
    + assert (Hz1 : IZR z <= -1) by (change (-1) with (IZR (-1)); apply IZR_le; lia).
      pose proof (Rle_abs (- (r + s - 2 * lb + 2 * IZR z * w))) as P. rewrite Rabs_Ropp in P. nra.
  - assert (Hsum : 0 <= r + s - 2 * lb <= 2 * w) by (unfold w; lra).
    assert (Hd : Rabs (r - s) <= r + s - 2 * lb /\ Rabs (r - s) <= 2 * w - (r + s - 2 * lb)).
    { unfold Rabs. destruct (Rcase_abs (r - s)); unfold w; lra. }
    destruct (Z_le_gt_dec z 0) as [Hz0|Hz0].
    + apply IZR_le in Hz0. pose proof (Rle_abs (- (- (r + s - 2 * lb) + 2 * IZR z * w))) as P. rewrite Rabs_Ropp in P. nra.
    + assert (Hz1 : 1 <= IZR z) by (change 1 with (IZR 1); apply IZR_le; lia).
      pose proof (Rle_abs (- (r + s - 2 * lb) + 2 * IZR z * w)). nra.
Qed.

Lemma reflect1_degenerate b x : reflect1 b b x = None.
Proof. unfold reflect1. destruct (Req_EM_T b b); congruence. Qed.

(** * rows *)
Lemma transpose_length {A} (d : A) c M : length (transpose d c M) = c.
Proof. unfold transpose. rewrite map_length, seq_length. reflexivity. Qed.
Lemma transpose_row {A} (d : A) c M k : (k < c)%nat -> nth k (transpose d c M) [] = map (fun r => nth k r d) M.
Proof. intros Hk. unfold transpose. rewrite (nth_map_default _ _ _ 0%nat) by (rewrite seq_length; auto). rewrite seq_nth; auto. Qed.
Lemma reflect_rows_length lb ub M : length (reflect_rows lb ub M) = length M.
Proof. unfold reflect_rows. rewrite map_length, seq_length. reflexivity. Qed.
Lemma reflect_rows_row lb ub M i : (i < length M)%nat ->
  nth i (reflect_rows lb ub M) [] = map (reflect_entry (nth i lb None) (nth i ub None)) (nth i M []).
Proof. intros Hi. unfold reflect_rows. rewrite (nth_map_default _ _ _ 0%nat) by (rewrite seq_length; auto). rewrite seq_nth; auto. Qed.

(** not square: every row is one point *)
Lemma box_matrix_rows cols M lb ub : length ub = length lb -> cols = length lb -> length M <> length lb ->
  handle_box_matrix cols M lb ub =
  Ok (map (fun r => map (fun k => reflect_entry (nth k lb None) (nth k ub None) (nth k r 0)) (seq 0 cols)) M).
Proof.
  intros Hu Hc Hne. unfold handle_box_matrix. rewrite Hu, Nat.eqb_refl. cbn [negb].
  destruct (Nat.eqb_spec (length M) (length lb)); [congruence|]. cbn [negb].
  rewrite transpose_length, Hc, Nat.eqb_refl. cbn [negb]. f_equal.
  apply (list_eq_nth []); [rewrite transpose_length, map_length; auto|].
  rewrite transpose_length. intros i Hi. rewrite transpose_row by auto.
  rewrite (nth_map_default _ M i []) by auto.
  apply (list_eq_nth None); [rewrite !map_length, reflect_rows_length, transpose_length, seq_length; auto|].
  rewrite map_length, reflect_rows_length, transpose_length. intros k Hk.
  rewrite (nth_map_default _ _ _ []) by (rewrite reflect_rows_length, transpose_length; auto).
  rewrite reflect_rows_row by (rewrite transpose_length; auto). rewrite transpose_row by auto.
  rewrite (nth_map_default _ _ _ 0) by (rewrite map_length; auto).
  rewrite (nth_map_default _ _ _ []) by auto.
  rewrite (nth_map_default _ _ _ 0%nat) by (rewrite seq_length; auto). rewrite seq_nth by auto. reflexivity.
Qed.

(** square: the bounds are applied to the rows *)
Lemma box_matrix_square M lb ub : length ub = length lb -> length M = length lb ->
  handle_box_matrix (length lb) M lb ub = Ok (reflect_rows lb ub M).
Proof.
  intros Hu Hm. unfold handle_box_matrix. rewrite Hu, Hm, !Nat.eqb_refl. cbn [negb]. rewrite Hm, Nat.eqb_refl. reflexivity.
Qed.

Lemma box_vector x lb ub : length ub = length lb -> length x = length lb ->
  handle_box_vector x lb ub = Ok (map (fun k => reflect_entry (nth k lb None) (nth k ub None) (nth k x 0)) (seq 0 (length x))).
Proof.
  intros Hu Hx. unfold handle_box_vector. destruct (Nat.eq_dec (length lb) 1) as [E|Hne].
  - rewrite Hx, box_matrix_square by (simpl; lia). simpl. f_equal.
    destruct x as [|a [|]]; simpl in *; try lia. rewrite E. reflexivity.
  - rewrite box_matrix_rows by (simpl; auto). simpl. rewrite app_nil_r. reflexivity.
Qed.

(** * set_bounds *)
Lemma set_bounds_scalar b dim : set_bounds (BScalar b) dim = Ok (repeat b dim).
Proof. simpl. unfold bound_len_check. rewrite repeat_length, Nat.eqb_refl. reflexivity. Qed.
Lemma set_bounds_len b dim l : set_bounds b dim = Ok l -> length l = dim.
Proof.
  assert (Hc : forall l l', bound_len_check l dim = Ok l' -> length l' = dim).
  { intros l0 l'. unfold bound_len_check. destruct (Nat.eqb_spec (length l0) dim); [|discriminate]. intros E; injection E as <-; auto. }
  destruct b as [x|l0| |[]]; simpl; try discriminate; apply Hc.
Qed.

(** * packing *)
Section PackP.
Context {T : Type} (zero : T).
Notation count := (@count_true).

Lemma count_cons b m : count_true (b :: m) = ((if b then 1 else 0) + count_true m)%nat.
Proof. unfold count_true. destruct b; reflexivity. Qed.
Lemma count_app a b : count_true (a ++ b) = (count_true a + count_true b)%nat.
Proof. unfold count_true. rewrite filter_app, app_length. reflexivity. Qed.
Lemma count_repeat p : count_true (repeat true p) = p.
Proof. induction p as [|p IH]; auto. simpl. rewrite count_cons, IH. reflexivity. Qed.
Lemma mask_row_length m (v : list T) : length v = length m -> length (mask_row m v) = count_true m.
Proof.
  revert v. induction m as [|b m IH]; intros [|x v] H; simpl in *; try lia; auto.
  rewrite count_cons. destruct b; simpl; rewrite IH by lia; auto.
Qed.
Lemma fill_repeat p m (a b : list T) : length a = p -> fill zero (repeat true p ++ m) (a ++ b) = a ++ fill zero m b.
Proof. revert a. induction p as [|p IH]; intros [|x a] H; simpl in *; try lia; auto. f_equal. apply IH. lia. Qed.
Lemma fill_length m (v : list T) : length (fill zero m v) = length m.
Proof. revert v. induction m as [|[] m IH]; intros v; simpl; auto. destruct v; simpl; auto. Qed.
Lemma fill_mask m (v : list T) : length v = length m ->
  fill zero m (mask_row m v) = map (fun bx : bool * T => if fst bx then snd bx else zero) (combine m v).
Proof.
  revert v. induction m as [|[] m IH]; intros [|x v] H; simpl in *; try lia; auto; f_equal; apply IH; lia.
Qed.
Lemma mask_fill m (v : list T) : length v = count_true m -> mask_row m (fill zero m v) = v.
Proof.
  revert v. induction m as [|[] m IH]; intros v H; rewrite ?count_cons in H; simpl in *.
  - destruct v; simpl in *; auto. discriminate.
  - destruct v as [|x v]; simpl in *; [lia|]. f_equal. apply IH. lia.
  - apply IH. auto.
Qed.

Lemma chunks_concat w (L : list (list T)) : (forall r, In r L -> length r = w) -> chunks (length L) w (concat L) = L.
Proof.
  induction L as [|r L IH]; intros H; simpl; auto. assert (Hr : length r = w) by (apply H; simpl; auto).
  rewrite firstn_app, <- Hr, firstn_all, Nat.sub_diag. simpl. rewrite app_nil_r. f_equal.
  rewrite skipn_app, skipn_all, Nat.sub_diag. simpl. rewrite Hr. apply IH. intros; apply H; simpl; auto.
Qed.
Lemma chunks_spec N w (x : list T) : length x = (N * w)%nat ->
  concat (chunks N w x) = x /\ length (chunks N w x) = N /\ forall r, In r (chunks N w x) -> length r = w.
Proof.
  revert x. induction N as [|N IH]; intros x Hx; simpl in *.
  - destruct x; [|discriminate]. split; auto. split; auto. intros r [].
  - destruct (IH (skipn w x)) as (H1 & H2 & H3); [rewrite skipn_length; lia|]. rewrite H1, H2. split; [apply firstn_skipn|].
    split; auto. intros r [<-|Hr]; auto. rewrite firstn_length. lia.
Qed.
Lemma concat_length w (L : list (list T)) : (forall r, In r L -> length r = w) -> length (concat L) = (length L * w)%nat.
Proof.
  induction L as [|r L IH]; intros H; simpl; auto. rewrite app_length, (H r), IH by (simpl; auto; intros; apply H; simpl; auto). auto.
Qed.
Lemma reshape_ok N w (x : list T) : (0 < N)%nat -> length x = (N * w)%nat -> reshape_rows N x = Ok (chunks N w x).
Proof.
  intros HN Hx. unfold reshape_rows. destruct (Nat.eqb_spec N 0); [lia|].
  rewrite Hx, Nat.mul_comm, Nat.mod_mul, Nat.div_mul by lia. reflexivity.
Qed.

(** the matrix with the inactive dual entries set to zero *)
Definition masked (p : nat) (X : list (list T)) (act : list (list bool)) : list (list T) :=
  map (fun am : list bool * list T => firstn p (snd am) ++
    map (fun bx : bool * T => if fst bx then snd bx else zero) (combine (fst am) (skipn p (snd am)))) (combine act X).

Lemma unpack_masked p dim X act : (p <= dim)%nat -> length act = length X -> (forall r, In r X -> length r = dim) ->
  (forall m, In m act -> length m = (dim - p)%nat) ->
  unpack_rows zero p (map (firstn p) X) (concat (map (fun am => mask_row (fst am) (snd am)) (combine act (map (skipn p) X)))) act
  = Ok (masked p X act).
Proof.
  intros Hp. revert act. induction X as [|r X IH]; intros [|m act] Hl HX HA; simpl in *; try lia; auto.
  assert (Hr : length r = dim) by auto. assert (Hm : length m = (dim - p)%nat) by auto.
  assert (Hmr : length (mask_row m (skipn p r)) = count_true m) by (apply mask_row_length; rewrite skipn_length; lia).
  rewrite firstn_app, <- Hmr, firstn_all, Nat.sub_diag. simpl. rewrite app_nil_r.
  unfold fill_row. rewrite app_length, count_app, count_repeat, Hmr, firstn_length, Hr, Nat.min_l, Nat.eqb_refl by lia.
  cbn [bind]. rewrite <- Hmr, skipn_app, skipn_all, Nat.sub_diag. simpl. rewrite IH by auto. cbn [bind].
  unfold masked. simpl. f_equal. f_equal. rewrite fill_repeat by (rewrite firstn_length; lia). f_equal.
  apply fill_mask. rewrite skipn_length. lia.
Qed.

Lemma pack_unpack N dim p X act : (0 < N)%nat -> (p <= dim)%nat -> length X = N -> length act = N ->
  (forall r, In r X -> length r = dim) -> (forall m, In m act -> length m = (dim - p)%nat) ->
  Nd_vector_to_matrix zero (matrix_to_Nd_vector X p act) N dim p act = Ok (masked p X act).
Proof.
  intros HN Hp HX HA HrX HrA. unfold Nd_vector_to_matrix.
  assert (H1 : forall r, In r (map (firstn p) X) -> length r = p).
  { intros r Hr. apply in_map_iff in Hr as (r' & <- & Hr'). rewrite firstn_length, HrX by auto. lia. }
  assert (HL : length (concat (map (firstn p) X)) = (N * p)%nat) by (rewrite (concat_length p), map_length, HX; auto).
  destruct (Nat.eqb_spec dim p) as [->|Hne].
  - assert (E : concat (map (fun am => mask_row (fst am) (snd am)) (combine act (map (skipn p) X))) = []).
    { clear - HrA HA HX HrX. subst N. revert act HA HrA. induction X as [|r X IH]; intros [|m act] HA HrA; simpl in *; auto.
      assert (Hm : length m = 0%nat) by (rewrite HrA; auto; lia). destruct m; [|discriminate]. simpl. apply IH; auto. }
    unfold matrix_to_Nd_vector. rewrite E, app_nil_r, (reshape_ok N p) by auto. f_equal.
    rewrite <- HX. replace (length X) with (length (map (firstn p) X)) by apply map_length. rewrite chunks_concat by auto.
    clear - HrA HA HX HrX. subst N. revert act HA HrA. induction X as [|r X IH]; intros [|m act] HA HrA; simpl in *; try lia; auto.
    unfold masked in *. simpl. assert (Hm : length m = 0%nat) by (rewrite HrA; auto; lia). destruct m; [|discriminate].
    simpl. rewrite app_nil_r. f_equal. apply IH; auto.
  - unfold matrix_to_Nd_vector. rewrite firstn_app, skipn_app, HL, Nat.sub_diag. rewrite <- HL at 1.
    rewrite firstn_all. simpl. rewrite app_nil_r, (reshape_ok N p) by auto. cbn [bind].
    rewrite <- HL at 1. rewrite skipn_all. simpl. rewrite <- HX.
    replace (length X) with (length (map (firstn p) X)) by apply map_length. rewrite chunks_concat by auto.
    apply (unpack_masked p dim); auto. lia.
Qed.

Lemma unpack_spec p dim a b act : (p <= dim)%nat -> length act = length a -> (forall r, In r a -> length r = p) ->
  (forall m, In m act -> length m = (dim - p)%nat) -> length b = fold_right (fun m s => (count_true m + s)%nat) 0%nat act ->
  exists X, unpack_rows zero p a b act = Ok X /\ length X = length a /\ (forall r, In r X -> length r = dim) /\
    map (firstn p) X = a /\
    concat (map (fun am => mask_row (fst am) (snd am)) (combine act (map (skipn p) X))) = b.
Proof.
  intros Hp. revert b act. induction a as [|ra a IH]; intros b [|m act] Hl Ha HA Hb; simpl in *; try lia.
  - exists []. destruct b; [|discriminate]. repeat split; auto. intros r [].
  - destruct (IH (skipn (count_true m) b) act) as (X & E & H1 & H2 & H3 & H4); auto; [rewrite skipn_length; lia|].
    assert (Hra : length ra = p) by auto. assert (Hm : length m = (dim - p)%nat) by auto.
    unfold fill_row. rewrite app_length, count_app, count_repeat, firstn_length, Hra, Nat.min_l, Nat.eqb_refl by lia.
    cbn [bind]. rewrite E. cbn [bind]. rewrite fill_repeat by auto.
    exists ((ra ++ fill zero m (firstn (count_true m) b)) :: X). split; auto. split; [simpl; auto|]. split.
    + intros r [<-|Hr]; auto. rewrite app_length, fill_length. lia.
    + simpl. rewrite firstn_app, skipn_app, <- Hra, firstn_all, skipn_all, Nat.sub_diag. simpl. rewrite app_nil_r, Hra, H3.
      split; auto. rewrite mask_fill by (rewrite firstn_length; lia). rewrite H4. apply firstn_skipn.
Qed.

Lemma unpack_pack N dim p x act : (0 < N)%nat -> (p <= dim)%nat -> length act = N ->
  (forall m, In m act -> length m = (dim - p)%nat) ->
  length x = (N * p + fold_right (fun m s => (count_true m + s)%nat) 0 act)%nat ->
  exists X, Nd_vector_to_matrix zero x N dim p act = Ok X /\ length X = N /\ (forall r, In r X -> length r = dim) /\
    matrix_to_Nd_vector X p act = x.
Proof.
  intros HN Hp HA HrA Hx. unfold Nd_vector_to_matrix.
  destruct (chunks_spec N p (firstn (N * p) x)) as (C1 & C2 & C3); [rewrite firstn_length; lia|].
  destruct (Nat.eqb_spec dim p) as [->|Hne].
  - assert (E0 : fold_right (fun m s => (count_true m + s)%nat) 0%nat act = 0%nat).
    { clear - HrA. induction act as [|m act IH]; simpl; auto. rewrite IH by (intros; apply HrA; simpl; auto).
      assert (Hm : length m = 0%nat) by (rewrite HrA; simpl; auto; lia). destruct m; [|discriminate]. reflexivity. }
    rewrite E0, Nat.add_0_r in Hx. rewrite firstn_all2 in C1, C2, C3 by lia.
    rewrite (reshape_ok N p) by auto. eexists. split; [reflexivity|]. split; auto. split; auto.
    unfold matrix_to_Nd_vector.
    assert (Ef : map (firstn p) (chunks N p x) = chunks N p x).
    { rewrite <- (map_id (chunks N p x)) at 2. apply map_ext_in. intros r Hr. apply firstn_all2. rewrite C3; auto. }
    rewrite Ef, C1.
    assert (E : concat (map (fun am => mask_row (fst am) (snd am)) (combine act (map (skipn p) (chunks N p x)))) = []).
    { clear - HrA. revert HrA. generalize (map (skipn p) (chunks N p x)). induction act as [|m act IH]; intros [|r L] HrA; simpl in *; auto.
      assert (Hm : length m = 0%nat) by (rewrite HrA; auto; lia). destruct m; [|discriminate]. simpl. apply IH; auto. }
    rewrite E, app_nil_r. reflexivity.
  - rewrite (reshape_ok N p) by (auto; rewrite firstn_length; lia). cbn [bind].
    destruct (unpack_spec p dim (chunks N p (firstn (N * p) x)) (skipn (N * p) x) act) as (X & E & H1 & H2 & H3 & H4); auto.
    + lia.
    + rewrite skipn_length. lia.
    + exists X. split; auto. split; [lia|]. split; auto.
      unfold matrix_to_Nd_vector. rewrite H3, H4, C1. apply firstn_skipn.
Qed.

(** the entries of [masked] *)
Lemma masked_entry dim p X act i j : (p <= dim)%nat -> length act = length X ->
  (forall r, In r X -> length r = dim) -> (forall m, In m act -> length m = (dim - p)%nat) ->
  (i < length X)%nat -> (j < dim)%nat ->
  nth j (nth i (masked p X act) []) zero =
  if (j <? p)%nat || nth (j - p) (nth i act []) false then nth j (nth i X []) zero else zero.
Proof.
  intros Hp HA HrX HrA Hi Hj. unfold masked.
  rewrite (nth_map_default _ _ _ ([], [])) by (rewrite combine_length; lia).
  rewrite combine_nth by auto. simpl fst. simpl snd.
  set (r := nth i X []). set (m := nth i act []).
  assert (Hr : length r = dim) by (apply HrX, nth_In; auto).
  assert (Hm : length m = (dim - p)%nat) by (apply HrA, nth_In; lia).
  assert (Hf : length (firstn p r) = p) by (rewrite firstn_length; lia).
  destruct (Nat.ltb_spec j p) as [Hlt|Hge]; cbn [orb].
  - rewrite app_nth1 by lia. rewrite <- (firstn_skipn p r) at 2. rewrite app_nth1 by lia. reflexivity.
  - rewrite app_nth2, Hf by lia.
    rewrite (nth_map_default _ _ _ (false, zero)) by (rewrite combine_length, skipn_length; lia).
    rewrite combine_nth by (rewrite skipn_length; lia). simpl. destruct (nth (j - p) m false); auto.
    rewrite <- (firstn_skipn p r) at 2. rewrite app_nth2, Hf by lia. reflexivity.
Qed.
End PackP.
