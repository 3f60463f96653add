(** Property theorems: helpers of utils.py (C17-C19, C51, C56, C57). *)
From Coq Require Import List Arith Bool Reals ZArith Lia Lra.
From Verif Require Import Num Exn ListAux MiscModel MiscProof PrecondProof.
Import ListNotations.
Open Scope R_scope.

(** * C17 *)

(** The result lies in the box, equals the argument up to reflections at the bounds, and
    is the only such number. *)
Theorem C17_reflects_into_box : forall x lb ub, length lb = length x -> length ub = length x ->
  (forall k, (k < length x)%nat -> forall l u, nth k lb None = Some l -> nth k ub None = Some u -> l < u) ->
  exists y, handle_box_vector x lb ub = Ok y /\ length y = length x /\
  forall k, (k < length x)%nat ->
    match nth k lb None, nth k ub None with
    | Some l, Some u => exists r, nth k y None = Some r /\ l <= r <= u /\
        (exists z : Z, r = nth k x 0 + 2 * IZR z * (u - l) \/ r = 2 * l - nth k x 0 + 2 * IZR z * (u - l)) /\
        (l <= nth k x 0 <= u -> r = nth k x 0)
    | _, _ => nth k y None = Some (nth k x 0)
    end.
Proof.
  intros x lb ub Hl Hu Hlt. rewrite box_vector by congruence. eexists. split; [reflexivity|].
  split; [rewrite map_length, seq_length; auto|]. intros k Hk. specialize (Hlt k Hk).
  rewrite (nth_map_default _ _ _ 0%nat) by (rewrite seq_length; auto). rewrite seq_nth by auto. simpl.
  destruct (nth k lb None) as [l|], (nth k ub None) as [u|]; auto. specialize (Hlt l u eq_refl eq_refl). simpl.
  destruct (reflect1_spec l u (nth k x 0) Hlt) as (r & E & Hr & Hz). exists r. repeat split; auto; try apply Hr.
  intros Hin. rewrite reflect1_inside in E by auto. congruence.
Qed.
Print Assumptions C17_reflects_into_box.

Theorem C17_unique : forall l u x r, l < u -> l <= r <= u ->
  (exists z : Z, r = x + 2 * IZR z * (u - l) \/ r = 2 * l - x + 2 * IZR z * (u - l)) -> reflect1 l u x = Some r.
Proof. exact reflect1_unique. Qed.
Print Assumptions C17_unique.

(** applying it twice changes nothing *)
Theorem C17_idempotent : forall x lb ub y y', length lb = length x -> length ub = length x ->
  (forall k, (k < length x)%nat -> forall l u, nth k lb None = Some l -> nth k ub None = Some u -> l < u) ->
  handle_box_vector x lb ub = Ok (map Some y) -> handle_box_vector y lb ub = Ok y' -> y' = map Some y.
Proof.
  intros x lb ub y y' Hl Hu Hlt E1 E2.
  destruct (C17_reflects_into_box x lb ub Hl Hu Hlt) as (z & Ez & Hz & Hk). rewrite E1 in Ez. injection Ez as <-.
  rewrite map_length in Hz. rewrite box_vector in E2 by congruence. injection E2 as <-.
  apply (list_eq_nth None); rewrite !map_length, seq_length; auto. intros k Hlk. rewrite Hz in Hlk.
  rewrite (nth_map_default _ _ _ 0%nat) by (rewrite seq_length; congruence). rewrite seq_nth by congruence. simpl.
  specialize (Hk k Hlk). rewrite (nth_map_default Some y k 0) in * by congruence. specialize (Hlt k Hlk).
  destruct (nth k lb None) as [l|], (nth k ub None) as [u|]; auto. specialize (Hlt l u eq_refl eq_refl).
  destruct Hk as (r & Er & Hr & _). injection Er as <-. simpl. apply reflect1_inside; auto.
Qed.
Print Assumptions C17_idempotent.

(** reflection with period 2(ub - lb), never increasing a distance *)
Theorem C17_periodic_reflection : forall l u x, l < u ->
  (forall z : Z, reflect1 l u (x + 2 * IZR z * (u - l)) = reflect1 l u x) /\
  reflect1 l u (2 * l - x) = reflect1 l u x /\ reflect1 l u (2 * u - x) = reflect1 l u x /\
  forall y r s, reflect1 l u x = Some r -> reflect1 l u y = Some s -> Rabs (r - s) <= Rabs (x - y).
Proof.
  intros l u x H. split; [intros; apply reflect1_period; auto|]. destruct (reflect1_mirror l u x H). repeat split; auto.
  intros. apply (reflect1_contract l u); auto.
Qed.
Print Assumptions C17_periodic_reflection.

Example C17_nonvacuous : handle_box_vector [7; 2] [Some 0; None] [Some 2; None] = Ok [Some 1; Some 2].
Proof.
  rewrite box_vector by reflexivity. cbn [length seq map nth reflect_entry].
  rewrite (reflect1_unique 0 2 7 1); [reflexivity|lra|lra|]. exists 2%Z. right. simpl. lra.
Qed.

(** equal bounds give NaN instead of the bound: the claim needs lb < ub *)
Theorem C17_equal_bounds_refuted : exists x lb ub, length lb = length x /\ length ub = length x /\
  handle_box_vector x (map Some lb) (map Some ub) = Ok [None] /\ lb = x /\ ub = x.
Proof.
  exists [3], [3], [3]. repeat split; auto. rewrite box_vector by reflexivity. cbn [length seq map nth reflect_entry].
  rewrite reflect1_degenerate. reflexivity.
Qed.
Print Assumptions C17_equal_bounds_refuted.

(** * C18 *)
(** a population whose size differs from the number of variables.  Missing: square
    populations, for which the claim is false (below). *)
Theorem C18_rows_partial : forall M lb ub, length ub = length lb ->
  (forall r, In r M -> length r = length lb) -> length M <> length lb ->
  exists Y, handle_box_matrix (length lb) M lb ub = Ok Y /\ length Y = length M /\
  forall i, (i < length M)%nat -> handle_box_vector (nth i M []) lb ub = Ok (nth i Y []).
Proof.
  intros M lb ub Hu Hr Hne. rewrite box_matrix_rows by auto. eexists. split; [reflexivity|].
  split; [apply map_length|]. intros i Hi. rewrite (nth_map_default _ M i []) by auto.
  assert (Hri : length (nth i M []) = length lb) by (apply Hr, nth_In; auto).
  rewrite box_vector by auto. rewrite Hri. reflexivity.
Qed.
Print Assumptions C18_rows_partial.
Example C18_nonvacuous : exists (M : list (list R)) (lb ub : list (option R)), length ub = length lb /\ (forall r, In r M -> length r = length lb) /\
  length M <> length lb /\ M <> [].
Proof.
  exists [[1; 2]], [Some 0; Some 0], [Some 1; Some 1]. repeat split; simpl; auto; try congruence.
  intros r [<-|[]]; reflexivity.
Qed.

(** two points with two variables: the bounds of variable 1 are applied to point 1 *)
Theorem C18_rows_refuted : exists M lb ub Y, length ub = length lb /\ (forall r, In r M -> length r = length lb) /\
  (forall k, (k < length lb)%nat -> exists l u, nth k lb None = Some l /\ nth k ub None = Some u /\ l < u) /\
  handle_box_matrix (length lb) M lb ub = Ok Y /\
  handle_box_vector (nth 0 M []) lb ub = Ok (map Some (nth 0 M [])) /\ nth 0 Y [] <> map Some (nth 0 M []).
Proof.
  exists [[1; 3]; [1; 3]], [Some 0; Some 0], [Some 2; Some 4].
  exists (reflect_rows [Some 0; Some 0] [Some 2; Some 4] [[1; 3]; [1; 3]]).
  split; auto. split; [intros r [<-|[<-|[]]]; reflexivity|]. split.
  { intros [|[|k]] Hk; simpl in Hk; try lia; simpl; eexists; eexists; repeat split; lra. }
  split; [apply (box_matrix_square [[1; 3]; [1; 3]] [Some 0; Some 0] [Some 2; Some 4]); reflexivity|]. split.
  - rewrite box_vector by reflexivity. cbn [length seq map nth reflect_entry].
    rewrite (reflect1_inside 0 2 1), (reflect1_inside 0 4 3) by lra. reflexivity.
  - rewrite reflect_rows_row by (simpl; lia). cbn [nth map reflect_entry].
    rewrite (reflect1_unique 0 2 3 1); [|lra|lra|exists 1%Z; right; simpl; lra].
    intros Hc. injection Hc as _ Hc. lra.
Qed.
Print Assumptions C18_rows_refuted.

(** * C19 *)
Theorem C19_pack_unpack : forall (T : Type) (zero : T) N dim p X act,
  (0 < N)%nat -> (p <= dim)%nat -> length X = N -> length act = N ->
  (forall r, In r X -> length r = dim) -> (forall m, In m act -> length m = (dim - p)%nat) ->
  exists Y, Nd_vector_to_matrix zero (matrix_to_Nd_vector X p act) N dim p act = Ok Y /\
  forall i j, (i < N)%nat -> (j < dim)%nat ->
    nth j (nth i Y []) zero = if (j <? p)%nat || nth (j - p) (nth i act []) false then nth j (nth i X []) zero else zero.
Proof.
  intros T zero N dim p X act HN Hp HX HA Hr Hm. exists (masked zero p X act).
  split; [apply pack_unpack; auto|]. intros i j Hi Hj. apply (masked_entry zero dim); auto; congruence.
Qed.
Print Assumptions C19_pack_unpack.

Theorem C19_unpack_pack : forall (T : Type) (zero : T) N dim p x act,
  (0 < N)%nat -> (p <= dim)%nat -> length act = N -> (forall m, In m act -> length m = (dim - p)%nat) ->
  length x = (N * p + fold_right (fun m s => (count_true m + s)%nat) 0 act)%nat ->
  exists X, Nd_vector_to_matrix zero x N dim p act = Ok X /\ length X = N /\ (forall r, In r X -> length r = dim) /\
    matrix_to_Nd_vector X p act = x.
Proof. exact @unpack_pack. Qed.
Print Assumptions C19_unpack_pack.

Example C19_nonvacuous :
  matrix_to_Nd_vector [[1; 2; 3; 4]; [5; 6; 7; 8]]%nat 2 [[true; false]; [true; true]] = [1; 2; 5; 6; 3; 7; 8]%nat /\
  Nd_vector_to_matrix 0%nat [1; 2; 5; 6; 3; 7; 8]%nat 2 4 2 [[true; false]; [true; true]] = Ok [[1; 2; 3; 0]; [5; 6; 7; 8]]%nat.
Proof. split; reflexivity. Qed.

(** * C51 *)
Theorem C51_shifted : forall n chol H, chol_ok n chol -> symm n H ->
  exists tau, 0 <= tau /\ (chol H <> None -> tau = 0) /\
  (forall i j, (i < n)%nat -> (j < n)%nat -> precondition_hessian n chol H i j = H i j + (if (i =? j)%nat then tau else 0)).
Proof. intros n chol H Hok Hs. exact (precond_shift n chol Hok H Hs). Qed.
Print Assumptions C51_shifted.

Theorem C51_positive_definite : forall n chol H, chol_ok n chol -> symm n H ->
  (chol H <> None \/ exists k, (k < 45)%nat /\ chol (shift H (trial (tau_start n H) k)) <> None) ->
  posdef n (precondition_hessian n chol H).
Proof. intros n chol H Hok Hs. exact (precond_posdef n chol Hok H Hs). Qed.
Print Assumptions C51_positive_definite.

(** 45 trials suffice for every matrix whose negative curvature is below 2^43 / 10^6 *)
Theorem C51_enough_trials : forall n chol H, chol_ok n chol -> symm n H -> chol_complete n chol ->
  (exists c, c <= beta * 2 ^ 43 /\ posdef n (shift H c)) -> posdef n (precondition_hessian n chol H).
Proof. intros n chol H Hok Hs. exact (precond_complete n chol Hok H Hs). Qed.
Print Assumptions C51_enough_trials.

(** a Cholesky routine for matrices of size one, and a matrix that needs a shift *)
Definition chol1 (M : nat -> nat -> R) : option (nat -> nat -> R) :=
  if Rlt_dec 0 (M 0%nat 0%nat) then Some (fun i j => if ((i =? j)%nat) then sqrt (M 0%nat 0%nat) else 0) else None.
Lemma posdef1 M : posdef 1 M <-> 0 < M 0%nat 0%nat.
Proof.
  split.
  - intros H. specialize (H (fun _ => 1) ltac:(exists 0%nat; split; [lia|lra])). unfold quad in H. simpl in H. lra.
  - intros H x (i & Hi & Hx). assert (i = 0%nat) by lia. subst. unfold quad. simpl.
    assert (0 < x 0%nat * x 0%nat) by nra. nra.
Qed.
Example C51_nonvacuous : chol_ok 1 chol1 /\ chol_complete 1 chol1 /\ symm 1 (fun _ _ => -3) /\ chol1 (fun _ _ => -3) = None /\
  (exists c, c <= beta * 2 ^ 43 /\ posdef 1 (shift (fun _ _ => -3) c)).
Proof.
  split; [|split; [|split; [|split]]].
  - intros M L _ E. unfold chol1 in E. destruct (Rlt_dec 0 (M 0%nat 0%nat)) as [Hp|]; [|discriminate]. injection E as <-.
    split; [|split].
    + intros i j Hi Hj. assert (i = 0%nat) by lia. assert (j = 0%nat) by lia. subst. simpl. rewrite sqrt_sqrt by lra. ring.
    + intros i j Hij. destruct (Nat.eqb_spec i j); [lia|reflexivity].
    + intros i Hi. rewrite Nat.eqb_refl. apply sqrt_lt_R0. auto.
  - intros M _ Hp. apply posdef1 in Hp. unfold chol1. destruct (Rlt_dec 0 (M 0%nat 0%nat)); [discriminate|contradiction].
  - intros i j _ _. reflexivity.
  - unfold chol1. destruct (Rlt_dec 0 (-3)); [lra|reflexivity].
  - exists 4. split; [unfold beta; lra|]. apply posdef1. unfold shift. simpl. lra.
Qed.

(** * C56 *)
Theorem C56_rows_of_input : forall lof X, sublist (preprocess_reference_set lof X) X.
Proof. exact preprocess_sublist. Qed.
Print Assumptions C56_rows_of_input.

(** the outlier step keeps exactly the rows that the detector does not label an outlier *)
Theorem C56_outliers : forall lof X, length (lof (Nat.max 5 (length (dedup_ref X) / 10)) (dedup_ref X)) = length (dedup_ref X) ->
  forall x, In x (preprocess_reference_set lof X) <->
  exists i, (i < length (dedup_ref X))%nat /\ nth i (dedup_ref X) [] = x /\
    nth i (lof (Nat.max 5 (length (dedup_ref X) / 10)) (dedup_ref X)) true = false.
Proof.
  intros lof X Hl x. unfold preprocess_reference_set. cbv zeta.
  set (D := dedup_ref X) in *. set (o := lof _ D) in *. clearbody o D. rewrite in_map_iff. split.
  - intros [[b y] [<- H]]. apply filter_In in H. destruct H as [H Hb].
    apply In_nth with (d := (true, [])) in H. destruct H as [i [Hi E]].
    rewrite combine_length, Hl, Nat.min_id in Hi. rewrite combine_nth in E by auto. injection E as E1 E2.
    exists i. split; auto. split; auto. rewrite E1. simpl in Hb. destruct b; auto; discriminate.
  - intros [i [Hi [<- H]]]. exists (false, nth i D []). split; auto. apply filter_In. split; auto.
    rewrite <- H, <- (combine_nth o D i true []) by auto. apply nth_In. rewrite combine_length, Hl, Nat.min_id. auto.
Qed.
Print Assumptions C56_outliers.
Example C56_outliers_meets : let lof := fun (_ : nat) (X : list (list R)) => map (fun i => (i =? 0)%nat) (seq 0 (length X)) in
  forall X, length (lof (Nat.max 5 (length (dedup_ref X) / 10)) (dedup_ref X)) = length (dedup_ref X).
Proof. intros lof X. unfold lof. rewrite map_length, seq_length. reflexivity. Qed.

(** without the outlier step, a row is lost only if another row is close to it, and only
    when more than 50 rows survive *)
Theorem C56_dropped_only_close : forall X i, (i < length X)%nat -> ~ In (nth i X []) (dedup_ref X) ->
  (50 < length (dedup_ref X))%nat /\
  exists j, (j < length X)%nat /\ j <> i /\ row_close (nth j X []) (nth i X []) = true.
Proof.
  intros X i Hi Hn. split.
  - destruct (Nat.le_gt_cases (length (isolated_idx X)) 50) as [Hle|Hgt].
    + rewrite dedup_few in Hn by auto. exfalso. apply Hn, nth_In; auto.
    + destruct (dedup_many X Hgt) as [-> _]. rewrite map_length. auto.
  - apply isolated_false. destruct (isolated X i) eqn:E; auto. exfalso. apply Hn. apply dedup_keeps; auto.
    apply isolated_true; auto.
Qed.
Print Assumptions C56_dropped_only_close.

(** a row without a close neighbour and not marked as an outlier stays *)
Theorem C56_isolated_kept : forall X i, (i < length X)%nat ->
  (forall j, (j < length X)%nat -> j <> i -> row_close (nth j X []) (nth i X []) = false) -> In (nth i X []) (dedup_ref X).
Proof. exact dedup_keeps. Qed.
Print Assumptions C56_isolated_kept.

(** "remove duplicated points" loses the point: no copy of a duplicated row is kept *)
Theorem C56_representative_refuted : exists X x, In x X /\ ~ In x (dedup_ref X) /\
  (exists i j, i <> j /\ (i < length X)%nat /\ (j < length X)%nat /\ nth i X [] = x /\ nth j X [] = x).
Proof.
  exists dup_rows, [INR 51]. destruct dup_dropped as [H1 H2]. split; auto. split; auto.
  exists 51%nat, 52%nat. repeat split; try (simpl; lia); apply (dup_nth); lia.
Qed.
Print Assumptions C56_representative_refuted.
Example C56_nonvacuous : exists X i, (i < length X)%nat /\ ~ In (nth i X []) (dedup_ref X).
Proof.
  exists dup_rows, 52%nat. split; [simpl; lia|]. rewrite dup_nth by lia. exact (proj1 dup_dropped).
Qed.

(** * C57 *)
Theorem C57_one_bound_per_variable : forall b dim,
  (forall l, set_bounds b dim = Ok l -> length l = dim) /\
  (forall x, b = BScalar x -> set_bounds b dim = Ok (repeat x dim)) /\
  (forall x, b = BIter [x] -> set_bounds b dim = Ok (repeat x dim)) /\
  (forall l, b = BIter l -> length l = dim -> length l <> 1%nat -> set_bounds b dim = Ok l) /\
  (forall l, b = BIter l -> length l <> dim -> length l <> 1%nat -> set_bounds b dim = Exn AssertionError).
Proof.
  intros b dim. split; [apply set_bounds_len|]. split; [intros x ->; apply set_bounds_scalar|].
  split; [intros x ->; simpl; unfold bound_len_check; rewrite repeat_length, Nat.eqb_refl; reflexivity|].
  assert (E : forall l : list R, length l <> 1%nat -> (match l with [x] => repeat x dim | _ => l end) = l).
  { intros [|a [|b' l]] H; simpl in *; auto. lia. }
  split; intros l -> H1 H2; simpl; rewrite E by auto; unfold bound_len_check.
  - rewrite H1, Nat.eqb_refl. reflexivity.
  - destruct (Nat.eqb_spec (length l) dim); [contradiction|reflexivity].
Qed.
Print Assumptions C57_one_bound_per_variable.
Example C57_nonvacuous : set_bounds (BIter [0; 1; 2]) 3 = Ok [0; 1; 2] /\ set_bounds (BIter [0; 1]) 3 = Exn AssertionError /\
  set_bounds (BScalar 4) 2 = Ok [4; 4].
Proof. repeat split. Qed.
