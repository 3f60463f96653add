(** Properties C71-C77: the root-finding problem and the Newton steps of HVN, DpN and
    MMDNewton, and the population update of HVN. *)
From Coq Require Import List Arith Bool Reals Lia Lra Psatz.
From Coquelicot Require Import Coquelicot.
From Verif Require Import Num Exn ListAux MiscModel MiscProof PrecondProof StateModel NewtonModel NewtonPop NewtonProof RefModel HVXModel HVXProof
  StepModel StepSpec StepProof StepTop StepMain StepDpn StepPath StepIter StepSolver StepLast.
From Verif Require PropsMisc.
Import ListNotations.
Open Scope R_scope.

(** a point used in the examples: one variable at 2, the constraint x^2 - 1, active *)
Definition p_ex : pt := mkPt [95] [-20] [3] [true] [[4]] [[[2]]].
(** a point with an active and an inactive constraint *)
Definition q_ex : pt := mkPt [1; 2] [3; 4] [5; 6] [true; false] [[1; 0]; [0; 1]] [[[0; 0]; [0; 0]]; [[0; 0]; [0; 0]]].
Lemma p_ex_shaped : shaped 1 1 p_ex.
Proof. unfold shaped; simpl. repeat split; auto. intros r [<-|[]]. auto. Qed.
Lemma q_ex_shaped : shaped 2 2 q_ex.
Proof. unfold shaped; simpl. repeat split; auto. intros r [<-|[<-|[]]]; auto. Qed.

(** * C71: the root-finding problem *)
Theorem C71_residual : forall d nc ps, (forall p, In p ps -> shaped d nc p) ->
  exists Rm dH, compute_R d nc true ps = Ok (Rm, Some dH) /\ is_R d nc ps Rm.
Proof. exact compute_R_spec. Qed.
Print Assumptions C71_residual.
Example C71_residual_meets : forall p, In p [q_ex] -> shaped 2 2 p.
Proof. intros p [<-|[]]. exact q_ex_shaped. Qed.

Theorem C71_unconstrained : forall d nc ps, compute_R d nc false ps = Ok (map pt_grad ps, None).
Proof. reflexivity. Qed.
Print Assumptions C71_unconstrained.

Theorem C71_zero_iff : forall d nc ps Rm dH, (forall p, In p ps -> shaped d nc p) -> compute_R d nc true ps = Ok (Rm, dH) ->
  all_zero Rm <->
  (forall i p, nth_error ps i = Some p -> (forall a, (a < d)%nat -> lagrangian nc p a = 0) /\
     (forall k, (k < nc)%nat -> nth k (pt_act p) false = true -> nth k (pt_cval p) 0 = 0)).
Proof.
  intros d nc ps Rm dH Hs E. destruct (compute_R_spec d nc ps Hs) as (Rm' & dH' & E' & HR). rewrite E in E'. injection E' as <- ->.
  exact (is_R_zero d nc ps Rm HR).
Qed.
Print Assumptions C71_zero_iff.
(** a point where the conditions hold with a non-zero multiplier, and one where they do not *)
Example C71_zero_meets : lagrangian 1 (mkPt [8] [-2] [0] [true] [[4]] [[[2]]]) 0 = 0 /\ shaped 1 1 (mkPt [8] [-2] [0] [true] [[4]] [[[2]]]) /\ lagrangian 1 p_ex 0 <> 0.
Proof.
  split; [|split].
  - unfold lagrangian, asum, ent. simpl. lra.
  - unfold shaped; simpl. repeat split; auto. intros r [<-|[]]. auto.
  - unfold lagrangian, asum, ent. simpl. lra.
Qed.

(** * C72: the step solves the linearised conditions *)
Section C72.
Variable solve : list (list R) -> list R -> option (list R).
Variable lstsq : list (list R) -> list R -> list R.
Variable chol : nat -> (nat -> nat -> R) -> option (nat -> nat -> R).
Hypothesis Hsolve : solve_ok solve.
Hypothesis Hlstsq : lstsq_ok lstsq.

(** the matrices that the methods use in place of the Hessian [Hs] of the indicator *)
Definition hvn_A (pre : bool) (Hs : list (list R)) := if pre then mneg (precond chol (mneg Hs)) else Hs.
Lemma hvn_A_matrix n pre Hs : matrix n n Hs -> matrix n n (hvn_A pre Hs).
Proof. intros H. destruct pre; simpl; auto. apply mneg_matrix, precond_matrix. apply mneg_matrix, H. Qed.

Theorem C72_hvn : forall d nc pre Hs ps, (0 < length ps)%nat -> (forall p, In p ps -> shaped d nc p) ->
  matrix (length ps * d) (length ps * d) Hs ->
  exists st Rm, hvn_step solve lstsq chol d nc true pre Hs ps = Ok (st, Rm) /\
    matrix (length ps) (d + nc) st /\ is_R d nc ps Rm /\ inactive_zero d nc ps st /\
    ((exists st', matrix (length ps) (d + nc) st' /\ linear_kkt true d nc (hvn_A pre Hs) ps st') -> linear_kkt true d nc (hvn_A pre Hs) ps st).
Proof. intros d nc pre Hs ps HN Hp HA. apply global_constrained; auto. apply (hvn_A_matrix _ pre _ HA). Qed.
Theorem C72_hvn_unconstrained : forall d nc pre Hs ps, (0 < length ps)%nat -> (forall p, In p ps -> length (pt_grad p) = d) ->
  matrix (length ps * d) (length ps * d) Hs ->
  exists st, hvn_step solve lstsq chol d nc false pre Hs ps = Ok (st, map pt_grad ps) /\ matrix (length ps) d st /\
    ((exists st', matrix (length ps) d st' /\ linear_kkt true d 0 (hvn_A pre Hs) ps st') -> linear_kkt true d 0 (hvn_A pre Hs) ps st).
Proof. intros d nc pre Hs ps HN Hp HA. apply global_unconstrained_kkt; auto. apply (hvn_A_matrix _ pre _ HA). Qed.
(** MMDNewton: without the curvature of the constraints *)
Theorem C72_mmd : forall d nc pre Hs ps, (0 < length ps)%nat -> (forall p, In p ps -> shaped d nc p) ->
  matrix (length ps * d) (length ps * d) Hs ->
  exists st Rm, mmd_step solve lstsq chol d nc true pre Hs ps = Ok (st, Rm) /\
    matrix (length ps) (d + nc) st /\ is_R d nc ps Rm /\ inactive_zero d nc ps st /\
    ((exists st', matrix (length ps) (d + nc) st' /\ linear_kkt false d nc (dpn_A chol pre Hs) ps st') -> linear_kkt false d nc (dpn_A chol pre Hs) ps st).
Proof. intros d nc pre Hs ps HN Hp HA. apply global_constrained; auto. apply (dpn_A_matrix chol _ pre _ HA). Qed.
Theorem C72_mmd_unconstrained : forall d nc pre Hs ps, (0 < length ps)%nat -> (forall p, In p ps -> length (pt_grad p) = d) ->
  matrix (length ps * d) (length ps * d) Hs ->
  exists st, mmd_step solve lstsq chol d nc false pre Hs ps = Ok (st, map pt_grad ps) /\ matrix (length ps) d st /\
    ((exists st', matrix (length ps) d st' /\ linear_kkt false d 0 (dpn_A chol pre Hs) ps st') -> linear_kkt false d 0 (dpn_A chol pre Hs) ps st).
Proof. intros d nc pre Hs ps HN Hp HA. apply global_unconstrained_kkt; auto. apply (dpn_A_matrix chol _ pre _ HA). Qed.
(** DpN: each point on its own *)
Theorem C72_dpn : forall d nc pre Hs ps, length Hs = length ps -> (forall H, In H Hs -> matrix d d H) -> (forall p, In p ps -> shaped d nc p) ->
  exists st Rm, dpn_step solve lstsq chol d nc true pre Hs ps = Ok (st, Rm) /\ matrix (length ps) (d + nc) st /\ is_R d nc ps Rm /\ inactive_zero d nc ps st /\
  forall r H p, nth_error Hs r = Some H -> nth_error ps r = Some p ->
    (exists s', length s' = (d + nc)%nat /\ linear_kkt true d nc (dpn_A chol pre H) [p] [s']) ->
    linear_kkt true d nc (dpn_A chol pre H) [p] [nth r st []].
Proof. exact (dpn_constrained solve lstsq chol Hsolve Hlstsq). Qed.
Theorem C72_dpn_unconstrained : forall d nc pre Hs ps, length Hs = length ps -> (forall H, In H Hs -> matrix d d H) -> (forall p, In p ps -> length (pt_grad p) = d) ->
  exists st, dpn_step solve lstsq chol d nc false pre Hs ps = Ok (st, map pt_grad ps) /\ matrix (length ps) d st /\
  forall r H p, nth_error Hs r = Some H -> nth_error ps r = Some p ->
    (exists s', length s' = d /\ linear_kkt true d 0 (dpn_A chol pre H) [p] [s']) ->
    linear_kkt true d 0 (dpn_A chol pre H) [p] [nth r st []].
Proof.
  intros d nc pre Hs ps HL HH Hp. destruct (dpn_unconstrained solve lstsq chol Hsolve Hlstsq d nc pre Hs ps HL HH Hp) as (st & E & HM & HS).
  exists st. split; [exact E|]. split; [exact HM|]. intros r H p EH Ep (s' & Ls' & Hk). rewrite (HS r H p EH Ep).
  pose proof (HH H (nth_error_In _ _ EH)) as HmH. pose proof (Hp p (nth_error_In _ _ Ep)) as Hg. pose proof (dpn_A_matrix chol d pre H HmH) as HA.
  assert (HL' : length (newton_dir solve lstsq (dpn_A chol pre H) (pt_grad p)) = d) by (apply newton_dir_length; auto).
  assert (M1 : forall s, length s = d -> matrix (length [p]) d [s]) by (intros s Hs'; split; auto; intros r0 [<-|[]]; auto).
  assert (HA1 : matrix (length [p] * d) (length [p] * d) (dpn_A chol pre H)) by (simpl length; rewrite Nat.mul_1_l; auto).
  assert (Hg1 : forall q, In q [p] -> length (pt_grad q) = d) by (intros q [<-|[]]; auto).
  apply (linear_unconstrained d true) in Hk; auto. apply linear_unconstrained; auto.
  simpl concat in *. rewrite ?app_nil_r in *. apply (newton_dir_solves solve lstsq Hsolve Hlstsq d); auto. exists s'. auto.
Qed.

(** * C73: rate of change of R along the step *)
Theorem C73_hvn_merit : forall d nc N Hs st Rm path, (0 < N)%nat -> matrix (N * d) (N * d) Hs ->
  (forall t i, (i < N)%nat -> shaped d nc (path t i)) ->
  hvn_step solve lstsq chol d nc true false Hs (points N (path 0)) = Ok (st, Rm) ->
  along d nc N Hs st path ->
  (exists st', matrix N (d + nc) st' /\ linear_kkt true d nc Hs (points N (path 0)) st') ->
  is_derive (fun t : R => merit_of d nc N (compute_R d nc true (points N (path t)))) 0 (-2 * sqnorm N (d + nc) Rm).
Proof.
  intros d nc N Hs st Rm path HN HM Hsh E Ha Hex.
  assert (Hp : forall p, In p (points N (path 0)) -> shaped d nc p) by (intros p Hp; apply in_map_iff in Hp as (i & <- & Hi); apply in_seq in Hi; apply Hsh; lia).
  destruct (C72_hvn d nc false Hs (points N (path 0))) as (st' & Rm' & E' & _ & HR & _ & HK); rewrite ?points_length; auto.
  rewrite E in E'. injection E' as <- <-. rewrite points_length in HK. simpl hvn_A in HK.
  evar_last; [apply (merit_derive d nc N Hs st path); auto|]. f_equal.
  destruct (compute_R_spec d nc (points N (path 0)) Hp) as (Rm2 & dH & ER & HR2). rewrite ER. simpl.
  rewrite (is_R_sqnorm d nc N (path 0) Rm2 HR2), (is_R_sqnorm d nc N (path 0) Rm HR). reflexivity.
Qed.
(** each point of DpN *)
Theorem C73_dpn_merit : forall d nc Hs path r H st Rm ps, length Hs = length ps -> (forall H, In H Hs -> matrix d d H) -> (forall p, In p ps -> shaped d nc p) ->
  dpn_step solve lstsq chol d nc true false Hs ps = Ok (st, Rm) -> nth_error Hs r = Some H -> nth_error ps r = Some (path 0) ->
  (forall t, shaped d nc (path t)) -> along d nc 1 H [nth r st []] (fun t _ => path t) ->
  (exists s', length s' = (d + nc)%nat /\ linear_kkt true d nc H [path 0] [s']) ->
  is_derive (fun t : R => merit_of d nc 1 (compute_R d nc true [path t])) 0 (-2 * merit_of d nc 1 (compute_R d nc true [path 0])).
Proof.
  intros d nc Hs path r H st Rm ps HL HH Hps E EH Ep Hsh Ha Hex.
  destruct (C72_dpn d nc false Hs ps HL HH Hps) as (st' & Rm' & E' & _ & _ & _ & HK). rewrite E in E'. injection E' as <- <-.
  specialize (HK r H (path 0) EH Ep Hex). apply (merit_derive d nc 1 H [nth r st []] (fun t _ => path t)); auto.
Qed.
(** MMDNewton, if the active constraints are affine *)
Theorem C73_mmd_merit_affine : forall d nc N Hs st Rm path, (0 < N)%nat -> matrix (N * d) (N * d) Hs ->
  (forall t i, (i < N)%nat -> shaped d nc (path t i)) ->
  mmd_step solve lstsq chol d nc true false Hs (points N (path 0)) = Ok (st, Rm) ->
  along d nc N Hs st path ->
  (forall i k a b, (i < N)%nat -> (k < nc)%nat -> nth k (pt_act (path 0 i)) false = true -> curvature (path 0 i) k a b = 0) ->
  (exists st', matrix N (d + nc) st' /\ linear_kkt false d nc Hs (points N (path 0)) st') ->
  is_derive (fun t : R => merit_of d nc N (compute_R d nc true (points N (path t)))) 0 (-2 * sqnorm N (d + nc) Rm).
Proof.
  intros d nc N Hs st Rm path HN HM Hsh E Ha Hc Hex.
  assert (Hp : forall p, In p (points N (path 0)) -> shaped d nc p) by (intros p Hp; apply in_map_iff in Hp as (i & <- & Hi); apply in_seq in Hi; apply Hsh; lia).
  destruct (C72_mmd d nc false Hs (points N (path 0))) as (st' & Rm' & E' & _ & HR & _ & HK); rewrite ?points_length; auto.
  rewrite E in E'. injection E' as <- <-. rewrite points_length in HK. simpl dpn_A in HK.
  evar_last; [apply (merit_derive d nc N Hs st path); auto|].
  - apply (proj1 (kkt_curv d nc Hs (points N (path 0)) st ltac:(intros p k a b Hin; apply in_map_iff in Hin as (i & <- & Hi); apply in_seq in Hi; apply Hc; lia))). auto.
  - f_equal. destruct (compute_R_spec d nc (points N (path 0)) Hp) as (Rm2 & dH & ER & HR2). rewrite ER. simpl.
    rewrite (is_R_sqnorm d nc N (path 0) Rm2 HR2), (is_R_sqnorm d nc N (path 0) Rm HR). reflexivity.
Qed.
(** MMDNewton, otherwise: the norm of R can even increase along the step.  One variable x = 2,
    the equality constraint x^2 - 1, the derivative x + 93 of the indicator, the multiplier -20 *)
Definition p_path (t : R) (_ : nat) : pt :=
  let x := 2 + t * (-3/4) in let l := -20 + t * (-57/16) in
  mkPt [x + 93] [l] [x * x - 1] [true] [[2 * x]] [[[2]]].
Theorem C73_mmd_merit_refuted : exists st Rm path (l : R),
  mmd_step solve lstsq chol 1 1 true false [[1]] (points 1 (path 0)) = Ok (st, Rm) /\
  (forall t i, (i < 1)%nat -> shaped 1 1 (path t i)) /\
  linear_kkt false 1 1 [[1]] (points 1 (path 0)) st /\ along 1 1 1 [[1]] st path /\
  is_derive (fun t : R => merit_of 1 1 1 (compute_R 1 1 true (points 1 (path t)))) 0 l /\ 0 < l.
Proof.
  assert (Hsh : forall t i, (i < 1)%nat -> shaped 1 1 (p_path t i)).
  { intros t i _. unfold shaped; simpl. repeat split; auto. intros r [<-|[]]. auto. }
  assert (Hp : forall t p, In p (points 1 (p_path t)) -> shaped 1 1 p).
  { intros t p Hp. apply in_map_iff in Hp as (i & <- & Hi). apply in_seq in Hi. apply Hsh. lia. }
  destruct (C72_mmd 1 1 false [[1]] (points 1 (p_path 0))) as (st & Rm & E & [M1 M2] & _ & _ & HK).
  { simpl. lia. }
  { apply Hp. }
  { simpl. split; auto. intros r [<-|[]]. auto. }
  assert (Hst : linear_kkt false 1 1 [[1]] (points 1 (p_path 0)) st).
  { apply HK. exists [[-3/4; -57/16]]. split; [split; [auto|intros r [<-|[]]; auto]|]. intros [|i] p Ep; [|destruct i; discriminate]. cbn in Ep. injection Ep as <-. split.
    - intros [|a] Ha; [|lia]. unfold lagrangian, asum, ent. simpl. lra.
    - intros [|k] Hk _; [|lia]. unfold ent. simpl. lra. }
  exists st, Rm, p_path, 432. split; [exact E|]. split; [exact Hsh|]. split; [exact Hst|].
  destruct (Hst 0%nat (p_path 0 0) eq_refl) as [K1 K2]. specialize (K1 0%nat ltac:(lia)). specialize (K2 0%nat ltac:(lia) eq_refl).
  unfold lagrangian, asum, ent in K1, K2. simpl in K1, K2. unfold ent.
  set (s0 := nth 0 (nth 0 st []) 0) in *. set (s1 := nth 1 (nth 0 st []) 0) in *.
  assert (Es0 : s0 = -3/4) by lra. assert (Es1 : s1 = -57/16) by lra.
  split; [|split; [|lra]].
  - split; [apply filter_forall; intros t i Hi; reflexivity|]. intros [|i] Hi; [|lia]. split; [|split; [|split]].
    + intros [|a] Ha; [|lia]. simpl. auto_derive; auto. unfold ent. simpl. fold s0. rewrite Es0. lra.
    + intros [|k] Hk; [|lia]. simpl. auto_derive; auto. unfold ent. simpl. fold s1. rewrite Es1. lra.
    + intros [|k] Hk; [|lia]. simpl. auto_derive; auto. unfold ent. simpl. fold s0. rewrite Es0. lra.
    + intros [|k] [|a] Hk Ha; try lia. unfold ent, curvature. simpl. auto_derive; auto. fold s0. rewrite Es0. lra.
  - apply (is_derive_ext (fun t : R => sumn 1 (fun i => sumn 2 (fun j => R_entry 1 1 (p_path t i) j * R_entry 1 1 (p_path t i) j)))).
    { intros t. destruct (compute_R_spec 1 1 (points 1 (p_path t)) (Hp t)) as (Rm' & dH & ER & HR). rewrite ER. simpl merit_of.
      symmetry. apply (is_R_sqnorm 1 1 1 (p_path t) Rm' HR). }
    unfold R_entry, lagrangian, asum, ent. simpl. auto_derive; auto. lra.
Qed.

(** * C74: affine systems *)
Theorem C74_hvn_exact : forall d nc Hs ps ps' st Rm, (0 < length ps)%nat -> (forall p, In p ps -> shaped d nc p) ->
  matrix (length ps * d) (length ps * d) Hs -> (forall p, In p ps' -> shaped d nc p) ->
  (forall p k a b, In p ps -> (k < nc)%nat -> nth k (pt_act p) false = true -> curvature p k a b = 0) ->
  hvn_step solve lstsq chol d nc true false Hs ps = Ok (st, Rm) -> affine_after d nc Hs st ps ps' ->
  (exists st', matrix (length ps) (d + nc) st' /\ linear_kkt true d nc Hs ps st') ->
  exists Rm' dH, compute_R d nc true ps' = Ok (Rm', Some dH) /\ all_zero Rm'.
Proof.
  intros d nc Hs ps ps' st Rm HN Hp HA Hp' HC E Haff Hex. destruct (C72_hvn d nc false Hs ps HN Hp HA) as (st2 & Rm2 & E2 & _ & _ & _ & HK).
  rewrite E in E2. injection E2 as <- <-. destruct (compute_R_spec d nc ps' Hp') as (Rm' & dH & ER & HR). exists Rm', dH. split; auto.
  refine (proj2 (is_R_zero d nc ps' Rm' HR) _). apply (affine_zero d nc Hs st ps ps'); auto. apply (kkt_curv d nc Hs ps st HC). apply HK, Hex.
Qed.
Theorem C74_mmd_exact : forall d nc Hs ps ps' st Rm, (0 < length ps)%nat -> (forall p, In p ps -> shaped d nc p) ->
  matrix (length ps * d) (length ps * d) Hs -> (forall p, In p ps' -> shaped d nc p) ->
  mmd_step solve lstsq chol d nc true false Hs ps = Ok (st, Rm) -> affine_after d nc Hs st ps ps' ->
  (exists st', matrix (length ps) (d + nc) st' /\ linear_kkt false d nc Hs ps st') ->
  exists Rm' dH, compute_R d nc true ps' = Ok (Rm', Some dH) /\ all_zero Rm'.
Proof.
  intros d nc Hs ps ps' st Rm HN Hp HA Hp' E Haff Hex. destruct (C72_mmd d nc false Hs ps HN Hp HA) as (st2 & Rm2 & E2 & _ & _ & _ & HK).
  rewrite E in E2. injection E2 as <- <-. destruct (compute_R_spec d nc ps' Hp') as (Rm' & dH & ER & HR). exists Rm', dH. split; auto.
  refine (proj2 (is_R_zero d nc ps' Rm' HR) _). apply (affine_zero d nc Hs st ps ps'); auto.
Qed.
Theorem C74_dpn_exact : forall d nc Hs ps st Rm r H p p', length Hs = length ps -> (forall H, In H Hs -> matrix d d H) -> (forall p, In p ps -> shaped d nc p) ->
  dpn_step solve lstsq chol d nc true false Hs ps = Ok (st, Rm) -> nth_error Hs r = Some H -> nth_error ps r = Some p ->
  (forall k a b, (k < nc)%nat -> nth k (pt_act p) false = true -> curvature p k a b = 0) ->
  affine_after d nc H [nth r st []] [p] [p'] ->
  (exists s', length s' = (d + nc)%nat /\ linear_kkt true d nc H [p] [s']) ->
  kkt_point d nc [p'].
Proof.
  intros d nc Hs ps st Rm r H p p' HL HH Hps E EH Ep HC Haff Hex.
  destruct (C72_dpn d nc false Hs ps HL HH Hps) as (st2 & Rm2 & E2 & _ & _ & _ & HK). rewrite E in E2. injection E2 as <- <-.
  specialize (HK r H p EH Ep Hex). simpl in HK.
  exact (affine_zero d nc H [nth r st []] [p] [p'] (proj2 (kkt_curv d nc H [p] [nth r st []] ltac:(intros q k a b [<-|[]]; apply HC)) HK) Haff).
Qed.

(** * C75: direction of the preconditioned step without constraints *)
(** [shiftable n H]: some admissible multiple of the identity makes [H] positive definite *)
Definition shiftable (n : nat) (H : list (list R)) : Prop := symm n (ent H) /\ exists c, c <= beta * 2 ^ 43 /\ posdef n (shift (ent H) c).
Lemma slope_chunks d ps st x : (forall p, In p ps -> length (pt_grad p) = d) -> matrix (length ps) d st -> concat st = x ->
  slope d ps st = dotR (concat (map pt_grad ps)) x.
Proof. intros Hp HM <-. apply slope_dot; auto. Qed.
Theorem C75_hvn_ascends : forall d nc Hs ps, (0 < length ps)%nat -> (forall p, In p ps -> length (pt_grad p) = d) ->
  matrix (length ps * d) (length ps * d) Hs -> chol_ok (length ps * d) (chol (length ps * d)%nat) -> chol_complete (length ps * d) (chol (length ps * d)%nat) ->
  shiftable (length ps * d) (mneg Hs) ->
  exists st, hvn_step solve lstsq chol d nc false true Hs ps = Ok (st, map pt_grad ps) /\
    (all_zero (map pt_grad ps) -> all_zero st) /\ (~ all_zero (map pt_grad ps) -> 0 < slope d ps st).
Proof.
  intros d nc Hs ps HN Hp HA Hok Hco [Hsy Hc]. set (n := (length ps * d)%nat) in *.
  assert (HA' : matrix n n (hvn_A true Hs)) by (apply hvn_A_matrix; auto).
  destruct (global_unconstrained solve lstsq Hsolve Hlstsq d nc true (hvn_A true Hs) ps HN Hp HA') as (st & E & HM & Est). exists st. split; [exact E|].
  assert (Hb : length (concat (map pt_grad ps)) = n) by (destruct (grads_matrix d ps Hp) as [G1 G2]; rewrite (concat_length d), G1; auto).
  assert (Hpos : posdef n (ent (mneg (hvn_A true Hs)))).
  { assert (Hm : matrix n n (mneg Hs)) by (apply mneg_matrix; auto). intros x Hx. simpl hvn_A. rewrite !mneg_quad. rewrite Ropp_involutive.
    apply (precond_pos chol n (mneg Hs) Hm Hok Hco Hsy Hc); auto. }
  destruct (ascent solve lstsq Hsolve Hlstsq n (hvn_A true Hs) (concat (map pt_grad ps)) HA' Hb Hpos) as (L & H1 & H2).
  assert (Ec : concat st = newton_dir solve lstsq (hvn_A true Hs) (concat (map pt_grad ps))) by (rewrite Est; destruct (chunks_spec (length ps) d _ L) as (-> & _); auto).
  pose proof (all_zero_concat _ _ _ (grads_matrix d ps Hp)) as Z1. pose proof (all_zero_concat _ _ _ HM) as Z2. split.
  - intros Hz. apply Z2. rewrite Ec. apply H1, Z1, Hz.
  - intros Hn. rewrite (slope_chunks d ps st _ Hp HM Ec). apply H2. intros Hz. apply Hn, Z1, Hz.
Qed.
Theorem C75_mmd_descends : forall d nc Hs ps, (0 < length ps)%nat -> (forall p, In p ps -> length (pt_grad p) = d) ->
  matrix (length ps * d) (length ps * d) Hs -> chol_ok (length ps * d) (chol (length ps * d)%nat) -> chol_complete (length ps * d) (chol (length ps * d)%nat) ->
  shiftable (length ps * d) Hs ->
  exists st, mmd_step solve lstsq chol d nc false true Hs ps = Ok (st, map pt_grad ps) /\
    (all_zero (map pt_grad ps) -> all_zero st) /\ (~ all_zero (map pt_grad ps) -> slope d ps st < 0).
Proof.
  intros d nc Hs ps HN Hp HA Hok Hco [Hsy Hc]. set (n := (length ps * d)%nat) in *.
  assert (HA' : matrix n n (dpn_A chol true Hs)) by (apply dpn_A_matrix; auto).
  destruct (global_unconstrained solve lstsq Hsolve Hlstsq d nc false (dpn_A chol true Hs) ps HN Hp HA') as (st & E & HM & Est). exists st. split; [exact E|].
  assert (Hb : length (concat (map pt_grad ps)) = n) by (destruct (grads_matrix d ps Hp) as [G1 G2]; rewrite (concat_length d), G1; auto).
  assert (Hpos : posdef n (ent (dpn_A chol true Hs))) by (apply (precond_pos chol n Hs HA Hok Hco Hsy Hc)).
  destruct (descent solve lstsq Hsolve Hlstsq n (dpn_A chol true Hs) (concat (map pt_grad ps)) HA' Hb Hpos) as (L & H1 & H2).
  assert (Ec : concat st = newton_dir solve lstsq (dpn_A chol true Hs) (concat (map pt_grad ps))) by (rewrite Est; destruct (chunks_spec (length ps) d _ L) as (-> & _); auto).
  pose proof (all_zero_concat _ _ _ (grads_matrix d ps Hp)) as Z1. pose proof (all_zero_concat _ _ _ HM) as Z2. split.
  - intros Hz. apply Z2. rewrite Ec. apply H1, Z1, Hz.
  - intros Hn. rewrite (slope_chunks d ps st _ Hp HM Ec). apply H2. intros Hz. apply Hn, Z1, Hz.
Qed.
Theorem C75_dpn_descends : forall d nc Hs ps, length Hs = length ps -> (forall p, In p ps -> length (pt_grad p) = d) ->
  (forall H, In H Hs -> matrix d d H) -> chol_ok d (chol d) -> chol_complete d (chol d) -> (forall H, In H Hs -> shiftable d H) ->
  exists st, dpn_step solve lstsq chol d nc false true Hs ps = Ok (st, map pt_grad ps) /\
    forall r p, nth_error ps r = Some p ->
      (zero_vec (pt_grad p) -> zero_vec (nth r st [])) /\ (~ zero_vec (pt_grad p) -> dotR (pt_grad p) (nth r st []) < 0).
Proof.
  intros d nc Hs ps HL Hp HH Hok Hco HS. destruct (dpn_unconstrained solve lstsq chol Hsolve Hlstsq d nc true Hs ps HL HH Hp) as (st & E & HM & Hst).
  exists st. split; [exact E|]. intros r p Ep. destruct (nth_error_nth' ps r p p Ep) as [Hr _].
  destruct (nth_error Hs r) as [H|] eqn:EH; [|apply nth_error_None in EH; lia]. rewrite (Hst r H p EH Ep).
  pose proof (HH H (nth_error_In _ _ EH)) as HmH. destruct (HS H (nth_error_In _ _ EH)) as [Hsy Hc].
  destruct (descent solve lstsq Hsolve Hlstsq d (dpn_A chol true H) (pt_grad p) (dpn_A_matrix chol d true H HmH) (Hp p (nth_error_In _ _ Ep))) as (_ & H1 & H2).
  - apply (precond_pos chol d H HmH Hok Hco Hsy Hc).
  - auto.
Qed.

(** * C76: fixed points of the step *)
Theorem C76_hvn_fixed : forall d nc pre Hs ps st Rm, (0 < length ps)%nat -> (forall p, In p ps -> shaped d nc p) ->
  matrix (length ps * d) (length ps * d) Hs -> hvn_step solve lstsq chol d nc true pre Hs ps = Ok (st, Rm) ->
  (all_zero Rm -> determined true d nc (hvn_A pre Hs) ps -> all_zero st) /\
  (all_zero st -> (exists st', matrix (length ps) (d + nc) st' /\ linear_kkt true d nc (hvn_A pre Hs) ps st') -> all_zero Rm).
Proof.
  intros d nc pre Hs ps st Rm HN Hp HA E. destruct (C72_hvn d nc pre Hs ps HN Hp HA) as (st2 & Rm2 & E2 & HM & HR & HI & HK).
  rewrite E in E2. injection E2 as <- <-. pose proof (is_R_zero d nc ps Rm HR) as HZ. split.
  - intros Hz HD. apply (fixed_point true d nc (hvn_A pre Hs) ps st); auto. exact (proj1 HZ Hz).
  - intros Hz Hex. refine (proj2 HZ _). apply (zero_kkt true d nc (hvn_A pre Hs) ps st Hz). apply HK, Hex.
Qed.
Theorem C76_mmd_fixed : forall d nc pre Hs ps st Rm, (0 < length ps)%nat -> (forall p, In p ps -> shaped d nc p) ->
  matrix (length ps * d) (length ps * d) Hs -> mmd_step solve lstsq chol d nc true pre Hs ps = Ok (st, Rm) ->
  (all_zero Rm -> determined false d nc (dpn_A chol pre Hs) ps -> all_zero st) /\
  (all_zero st -> (exists st', matrix (length ps) (d + nc) st' /\ linear_kkt false d nc (dpn_A chol pre Hs) ps st') -> all_zero Rm).
Proof.
  intros d nc pre Hs ps st Rm HN Hp HA E. destruct (C72_mmd d nc pre Hs ps HN Hp HA) as (st2 & Rm2 & E2 & HM & HR & HI & HK).
  rewrite E in E2. injection E2 as <- <-. pose proof (is_R_zero d nc ps Rm HR) as HZ. split.
  - intros Hz HD. apply (fixed_point false d nc (dpn_A chol pre Hs) ps st); auto. exact (proj1 HZ Hz).
  - intros Hz Hex. refine (proj2 HZ _). apply (zero_kkt false d nc (dpn_A chol pre Hs) ps st Hz). apply HK, Hex.
Qed.
Theorem C76_dpn_fixed : forall d nc pre Hs ps st Rm r H p, length Hs = length ps -> (forall H, In H Hs -> matrix d d H) -> (forall p, In p ps -> shaped d nc p) ->
  dpn_step solve lstsq chol d nc true pre Hs ps = Ok (st, Rm) -> nth_error Hs r = Some H -> nth_error ps r = Some p ->
  (kkt_point d nc [p] -> determined true d nc (dpn_A chol pre H) [p] -> zero_vec (nth r st [])) /\
  (zero_vec (nth r st []) -> (exists s', length s' = (d + nc)%nat /\ linear_kkt true d nc (dpn_A chol pre H) [p] [s']) -> kkt_point d nc [p]).
Proof.
  intros d nc pre Hs ps st Rm r H p HL HH Hps E EH Ep.
  destruct (C72_dpn d nc pre Hs ps HL HH Hps) as (st2 & Rm2 & E2 & HM & _ & HI & HK). rewrite E in E2. injection E2 as <- <-. specialize (HK r H p EH Ep).
  destruct (nth_error_nth' ps r p p Ep) as [Hr _]. destruct HM as [M1 M2].
  assert (HM1 : matrix (length [p]) (d + nc) [nth r st []]) by (split; auto; intros x [<-|[]]; apply M2, nth_In; lia).
  assert (HI1 : inactive_zero d nc [p] [nth r st []]).
  { intros [|i] q k Eq Hk Ha; [|destruct i; discriminate]. injection Eq as <-. apply (HI r p k Ep Hk Ha). }
  split.
  - intros Hkp HD j. assert (Hz : all_zero [nth r st []]); [|exact (Hz 0%nat j)].
    apply (fixed_point true d nc (dpn_A chol pre H) [p]); auto. intros (s' & [S1 S2] & Hs'). apply HK.
    destruct s' as [|s' [|]]; try discriminate. exists s'. split; auto. apply S2. simpl. auto.
  - intros Hz Hex. apply (zero_kkt true d nc (dpn_A chol pre H) [p] [nth r st []]); [|apply HK, Hex].
    intros [|i] j; [apply Hz|]. unfold ent. destruct i; simpl; destruct j; auto.
Qed.
End C72.
Print Assumptions C72_hvn.
Print Assumptions C72_hvn_unconstrained.
Print Assumptions C72_mmd.
Print Assumptions C72_mmd_unconstrained.
Print Assumptions C72_dpn.
Print Assumptions C72_dpn_unconstrained.
Print Assumptions C73_hvn_merit.
Print Assumptions C73_dpn_merit.
Print Assumptions C73_mmd_merit_affine.
Print Assumptions C73_mmd_merit_refuted.
Print Assumptions C74_hvn_exact.
Print Assumptions C74_mmd_exact.
Print Assumptions C74_dpn_exact.
Print Assumptions C75_hvn_ascends.
Print Assumptions C75_mmd_descends.
Print Assumptions C75_dpn_descends.
Print Assumptions C76_hvn_fixed.
Print Assumptions C76_mmd_fixed.
Print Assumptions C76_dpn_fixed.

(** * C77: HVN.iterate *)
Theorem C77_iterate : forall layer_step layer_size dim m feasible Y X,
  length feasible = length Y -> (2 <= m)%nat -> (forall y, In y Y -> length y = m) -> length X = length Y -> (forall x, In x X -> length x = dim) ->
  exists layers, hvn_layers feasible Y = Ok layers /\
  ((forall k idx, In (k, idx) layers -> exists s r a, layer_result layer_step layer_size idx s r a /\ forall row, In row s -> length row = dim) ->
   exists X' Rm, hvn_update layer_step layer_size dim (map snd layers) X = Ok (X', Rm) /\ length X' = length X /\ length Rm = length X /\
   (* every individual belongs to exactly one layer and moves by its own row of that layer's step *)
   forall i, (i < length X)%nat -> exists k idx j s r a, In (k, idx) layers /\ (j < length idx)%nat /\ nth j idx 0%nat = i /\
     (forall k' idx', In (k', idx') layers -> In i idx' -> k' = k /\ idx' = idx) /\
     layer_result layer_step layer_size idx s r a /\
     nth i Rm [] = nth j r [] /\ (forall c, (c < dim)%nat -> ent X' i c = ent X i c + a * ent s j c)).
Proof.
  intros layer_step layer_size dim m feasible Y X HL Hm HY HX Hdim.
  destruct (hvn_layers_spec feasible Y m HL Hm HY) as (d & E & H1 & H2 & _). exists d. split; [exact E|]. intros Hst.
  destruct (hvn_layers_keys feasible Y m d HL Hm HY E) as (q & Hq).
  destruct (layers_flat d (length Y) H1 ltac:(rewrite Hq; apply seq_NoDup) H2) as [F1 F2].
  destruct (hvn_update_spec layer_step layer_size dim (map snd d) X Hdim) as (X' & Rm & EU & L1 & L2 & HU); auto.
  { intros idx Hin. apply in_map_iff in Hin as ([k l] & <- & Hin). simpl. destruct (H1 k l Hin) as [Hnd Hb]. split; auto. rewrite HX. split; auto. apply (Hst k l Hin). }
  { rewrite HX. auto. }
  exists X', Rm. split; [exact EU|]. split; auto. split; auto. intros i Hi. rewrite HX in Hi. destruct (H2 i Hi) as (k & idx & Hin & Hii & Hun).
  apply (In_nth _ _ 0%nat) in Hii as (j & Hj & Ej). destruct (Hst k idx Hin) as (s & r & a & Hres & _).
  exists k, idx, j, s, r, a. split; auto. split; auto. split; auto. split; auto. split; auto.
  destruct (HU idx s r a j) as (U1 & _ & U3); auto. { apply (in_map snd) in Hin. exact Hin. }
  rewrite Ej in U1, U3. split; auto.
Qed.
Print Assumptions C77_iterate.
(** a population with a feasible dominated point, an infeasible point and a first layer *)
Example C77_meets : let Y := [[1; 2]; [0; 0]; [2; 3]] in let X := [[1]; [2]; [3]] in
  length [true; false; true] = length Y /\ (forall y, In y Y -> length y = 2%nat) /\ length X = length Y /\ (forall x, In x X -> length x = 1%nat) /\
  (forall idx : list nat, layer_result (fun idx => Ok (map (fun _ => [1]) idx, map (fun _ => [0]) idx)) (fun _ _ _ => Ok 1) idx (map (fun _ => [1]) idx) (map (fun _ => [0]) idx) 1).
Proof.
  repeat split; simpl; auto; try (rewrite map_length; auto).
  - intros y [<-|[<-|[<-|[]]]]; auto.
  - intros x [<-|[<-|[<-|[]]]]; auto.
Qed.

(** * the hypotheses can be met *)
Example C72_solvers : solve_ok solve0 /\ lstsq_ok lstsq0.
Proof. split; [exact solve0_ok|exact lstsq0_ok]. Qed.
(** a solvable system with an active curved constraint, for the three methods *)
Example C72_solvable : matrix 1 2 [[-3/4; -183/16]] /\ linear_kkt true 1 1 [[-1]] [p_ex] [[-3/4; -183/16]] /\ linear_kkt false 1 1 [[1]] [p_ex] [[-3/4; -57/16]].
Proof.
  split; [split; [auto|intros r [<-|[]]; auto]|]. split; intros [|i] p Ep; try (destruct i; discriminate); injection Ep as <-; split.
  - intros [|a] Ha; [|lia]. unfold lagrangian, asum, ent, curvature. simpl. lra.
  - intros [|k] Hk _; [|lia]. unfold ent. simpl. lra.
  - intros [|a] Ha; [|lia]. unfold lagrangian, asum, ent. simpl. lra.
  - intros [|k] Hk _; [|lia]. unfold ent. simpl. lra.
Qed.
(** such a system is determined *)
Example C76_determined : determined true 1 1 [[-1]] [p_ex].
Proof.
  intros st st' [M1 M2] [M1' M2'] H H' _ _ i j.
  destruct (H 0%nat p_ex eq_refl) as [H1 H2], (H' 0%nat p_ex eq_refl) as [H1' H2'].
  specialize (H1 0%nat (Nat.lt_0_succ 0)). specialize (H2 0%nat (Nat.lt_0_succ 0) eq_refl). specialize (H1' 0%nat (Nat.lt_0_succ 0)). specialize (H2' 0%nat (Nat.lt_0_succ 0) eq_refl).
  unfold lagrangian, asum, ent, curvature in *. simpl in *.
  destruct st as [|[|x [|y [|]]] [|]]; simpl in *; try discriminate; try (specialize (M2 _ (or_introl eq_refl)); discriminate).
  destruct st' as [|[|x' [|y' [|]]] [|]]; simpl in *; try discriminate; try (specialize (M2' _ (or_introl eq_refl)); discriminate).
  destruct i as [|[|i]]; simpl; auto. destruct j as [|[|j]]; simpl; auto; lra.
Qed.
(** affine data: the constraint 4 x - 5 with derivative 4 and no curvature, and what they become *)
Example C74_meets : let p := mkPt [95] [-20] [3] [true] [[4]] [[[0]]] in let q := mkPt [95 - 3/4] [-20 + -57/16] [0] [true] [[4]] [[[0]]] in
  linear_kkt true 1 1 [[1]] [p] [[-3/4; -57/16]] /\ affine_after 1 1 [[1]] [[-3/4; -57/16]] [p] [q] /\ (forall k a b, curvature p k a b = 0).
Proof.
  intros p q. split; [|split].
  - intros [|i] p' Ep; [|destruct i; discriminate]. injection Ep as <-. split.
    + intros [|a] Ha; [|lia]. unfold lagrangian, asum, ent, curvature. simpl. lra.
    + intros [|k] Hk _; [|lia]. unfold ent. simpl. lra.
  - split; auto. intros [|i] p' q' Ep Eq; [|destruct i; discriminate]. injection Ep as <-. injection Eq as <-. split; auto. split; [|split; [|split]].
    + intros [|a] Ha; [|lia]. unfold ent. simpl. lra.
    + intros [|k] Hk; [|lia]. unfold ent. simpl. lra.
    + intros [|k] Hk; [|lia]. unfold ent. simpl. lra.
    + intros [|k] [|a] Hk Ha; try lia. unfold ent. simpl. lra.
  - intros k a b. unfold curvature. destruct k as [|[|k]]; simpl; destruct a as [|[|a]]; simpl; destruct b as [|[|b]]; simpl; auto.
Qed.
(** a Hessian that needs the shift, and a routine for matrices of size one *)
Example C75_meets : shiftable 1 (mneg [[3]]) /\ chol_ok 1 PropsMisc.chol1 /\ chol_complete 1 PropsMisc.chol1 /\ ~ all_zero (map pt_grad [p_ex]).
Proof.
  destruct PropsMisc.C51_nonvacuous as (H1 & H2 & _). split; [|split; [|split]]; auto.
  - split; [intros i j Hi Hj; assert (i = 0%nat) by lia; assert (j = 0%nat) by lia; subst; auto|]. exists 4. split; [unfold beta; lra|].
    apply PropsMisc.posdef1. unfold shift, ent. simpl. lra.
  - intros H. specialize (H 0%nat 0%nat). unfold ent in H. simpl in H. lra.
Qed.
