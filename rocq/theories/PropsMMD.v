(** Property theorems: maximum mean discrepancy. *)
From Coq Require Import List Arith Bool Reals Lia Lra Permutation Sorting.Sorted.
From Coquelicot Require Import Coquelicot.
From Verif Require Import Num Exn ListAux HVDSpec HVDProof NewtonModel NewtonProof HVXModel HVXSpec HVXProof
  RefModel RefProof RefSpec RefTop IndSpec IndModel IndProof IndGD IndIGD IndTop MMDSpec MMDModel MMDProof MMDKern MMDTop MMDSym.
Import ListNotations.
Open Scope R_scope.

(** the indicator with another reference set *)
Definition with_ref (o : mmd) (ref : list (list R)) : mmd := mkMMD (m_nvar o) (m_nobj o) ref (m_func o) (m_jac o) (m_hess o).

(** * Examples: two objectives, f(a, b) = (a^2, b) and the identity on the line *)
Definition ex_f (x : list R) : list R := [nth 0 x 0 * nth 0 x 0; nth 1 x 0].
Definition ex_J (x : list R) (a k : nat) : R := match a, k with 0%nat, 0%nat => 2 * nth 0 x 0 | 1%nat, 1%nat => 1 | _, _ => 0 end.
Definition ex_H (x : list R) (a k l : nat) : R := match a, k, l with 0%nat, 0%nat, 0%nat => 2 | _, _, _ => 0 end.
Definition ex_o (ref : list (list R)) : mmd := mkMMD 2 2 ref ex_f ex_J ex_H.
Lemma ex_smooth ref : smooth_m (ex_o ref).
Proof.
  split.
  - intros x _. reflexivity.
  - intros x Hx k v Hk Hv. destruct x as [|a [|b [|]]]; simpl in Hx; try lia. simpl in Hk, Hv.
    destruct k as [|[|k]]; [| |lia]; (destruct v as [|[|v]]; [| |lia]); simpl; auto_derive; auto; ring.
  - intros x Hx k v w Hk Hv Hw. destruct x as [|a [|b [|]]]; simpl in Hx; try lia. simpl in Hk, Hv, Hw.
    destruct k as [|[|k]]; [| |lia]; (destruct v as [|[|v]]; [| |lia]); (destruct w as [|[|w]]; [| |lia]); simpl; (split; [auto_derive; auto; ring|auto]).
Qed.
Definition id_o (n : nat) (ref : list (list R)) : mmd :=
  mkMMD n n ref (fun x => x) (fun _ a k => if (a =? k)%nat then 1 else 0) (fun _ _ _ _ => 0).
Lemma id_smooth n ref : smooth_m (id_o n ref).
Proof.
  split.
  - intros x Hx. exact Hx.
  - intros x Hx k v Hk Hv. simpl in *. subst n. apply (is_derive_ext (fun t : R => if (k =? v)%nat then t else nth k x 0)).
    { intros t. rewrite nth_set_at by auto. auto. }
    destruct (k =? v)%nat; [apply @is_derive_id|apply @is_derive_const].
  - intros x Hx k v w Hk Hv Hw. simpl. split; auto. apply @is_derive_const.
Qed.
Definition ex_X : list (list R) := [[2; 3]; [0; 1]].
Definition ex_ref : list (list R) := [[5; 0]; [1; 0]; [2; 4]].
Ltac rows_tac := let a := fresh in let b := fresh in intros a b; simpl in b; repeat (destruct b as [<-|b]; [reflexivity|]); destruct b.

(** * C43 *)
Theorem C43_value : forall q o Y m, Y <> [] -> m_ref o <> [] -> rows m Y -> rows m (m_ref o) ->
  exists v, mmd_compute q o None (Some Y) = Ok v /\ MMD2 (k_ q) (m_ref o) Y v.
Proof. intros q o Y m H1 H2 H3 H4. eexists. split; [apply (mmd_value q o Y m); auto|reflexivity]. Qed.
Print Assumptions C43_value.
Theorem C43_symmetric : forall q o A B m, A <> [] -> B <> [] -> rows m A -> rows m B ->
  (forall x y, length x = m -> length y = m -> k_ q x y = k_ q y x) ->
  exists v, mmd_compute q (with_ref o A) None (Some B) = Ok v /\ mmd_compute q (with_ref o B) None (Some A) = Ok v.
Proof.
  intros q o A B m HA HB RA RB Hs. eexists. split; [apply (mmd_value q (with_ref o A) B m); auto|].
  rewrite (mmd_value q (with_ref o B) A m) by auto. f_equal. simpl m_ref. rewrite (mean_swap (k_ q) B A) by auto. ring.
Qed.
Print Assumptions C43_symmetric.
Theorem C43_permutation : forall q o Y Y' m, Y <> [] -> m_ref o <> [] -> rows m Y -> rows m (m_ref o) -> Permutation Y Y' ->
  mmd_compute q o None (Some Y') = mmd_compute q o None (Some Y).
Proof.
  intros q o Y Y' m HY HR RY RR HP. rewrite (mmd_value q o Y m) by auto.
  rewrite (mmd_value q o Y' m); auto.
  - rewrite (mean_perm (k_ q) Y' Y Y' Y), (mean_perm (k_ q) (m_ref o) (m_ref o) Y' Y) by (auto using Permutation_sym). auto.
  - intros ->. apply Permutation_sym, Permutation_nil in HP. auto.
  - apply (rows_perm m Y); auto.
Qed.
Print Assumptions C43_permutation.
Theorem C43_zero : forall q o Y m, m_ref o <> [] -> rows m (m_ref o) -> Permutation Y (m_ref o) -> mmd_compute q o None (Some Y) = Ok 0.
Proof.
  intros q o Y m HR RR HP. assert (HY : Y <> []) by (intros ->; apply Permutation_nil in HP; auto).
  assert (RY : rows m Y) by (apply (rows_perm m (m_ref o)); auto using Permutation_sym).
  rewrite (mmd_value q o Y m) by auto. f_equal. rewrite (mean_perm (k_ q) Y (m_ref o) Y (m_ref o)), (mean_perm (k_ q) (m_ref o) (m_ref o) Y (m_ref o)) by auto. ring.
Qed.
Print Assumptions C43_zero.
Example C43_case : rows 2 ex_ref /\ Permutation [[1; 0]; [5; 0]; [2; 4]] ex_ref /\
  (forall x y, length x = 2%nat -> length y = 2%nat -> k_ (rbf_kern 1) x y = k_ (rbf_kern 1) y x) /\
  (forall x y, length x = 2%nat -> length y = 2%nat -> k_ (lap_kern 1) x y = k_ (lap_kern 1) y x).
Proof.
  split; [rows_tac|]. split; [apply perm_swap|]. split; [apply (ko_sym _ _ _ _ _ _ (rbf_ok 2 1))|apply (ko_sym _ _ _ _ _ _ (laplace_ok 2 1))].
Qed.

(** * C61: the gradient *)
(** the derivatives JAX returns for the kernels of the library, and where they exist *)
Theorem C61_rbf_ok : forall m theta, kernel_ok m (fun _ _ => True) (k_ (rbf_kern theta)) (k_dx (rbf_kern theta)) (k_dx2 (rbf_kern theta)) (k_dxdy (rbf_kern theta)).
Proof. exact rbf_ok. Qed.
Print Assumptions C61_rbf_ok.
Theorem C61_rational_quadratic_ok : forall m theta alpha, 0 <= theta -> 0 < alpha ->
  kernel_ok m (fun _ _ => True) (k_ (rq_kern theta alpha)) (k_dx (rq_kern theta alpha)) (k_dx2 (rq_kern theta alpha)) (k_dxdy (rq_kern theta alpha)).
Proof. exact rq_ok. Qed.
Print Assumptions C61_rational_quadratic_ok.
Theorem C61_laplace_ok : forall m theta, kernel_ok m (apart m) (k_ (lap_kern theta)) (k_dx (lap_kern theta)) (k_dx2 (lap_kern theta)) (k_dxdy (lap_kern theta)).
Proof. exact laplace_ok. Qed.
Print Assumptions C61_laplace_ok.

Theorem C61_mmd_gradient_partial : forall q dom o X Y J hes i k, kernel_ok (m_nobj o) dom (k_ q) (k_dx q) (k_dx2 q) (k_dxdy q) ->
  smooth_m o -> m_ref o <> [] -> rows (m_nobj o) (m_ref o) -> rows (m_nvar o) X -> agree_m o X Y J ->
  (i < length X)%nat -> (k < m_nvar o)%nat -> sepm dom (m_ref o) (map (m_func o) X) i ->
  exists G H, mmd_derivatives q o X Y J hes = Ok (G, H) /\
    is_partial_I (MMD2 (k_ q) (m_ref o)) (m_func o) X i k (nth k (nth i G []) 0).
Proof. exact mmd_gradient. Qed.
Print Assumptions C61_mmd_gradient_partial.
(** with matching, for the matched rows [M] and the value of beta in the compiled function *)
Theorem C61_mmdm_gradient_partial : forall q dom o s mt X Y J hes i k M, kernel_ok (m_nobj o) dom (k_ q) (k_dx q) (k_dx2 q) (k_dxdy q) ->
  smooth_m o -> rows (m_nvar o) X -> agree_m o X Y J -> mt (map (m_func o) X) = Ok M -> length M = length X -> rows (m_nobj o) M ->
  (i < length X)%nat -> (k < m_nvar o)%nat -> sepmm dom M (map (m_func o) X) i ->
  exists G H s', mmdm_derivatives q o s mt X Y J hes = Ok (G, H, s') /\
    is_partial_I (MMDM (k_ q) (fst (traced (mm_grad s) (shape_of (map (m_func o) X) M) (mm_beta s))) M) (m_func o) X i k (nth k (nth i G []) 0).
Proof. exact mmdm_gradient. Qed.
Print Assumptions C61_mmdm_gradient_partial.
(** the value these are derivatives of is the one [compute] returns *)
Theorem C61_mmdm_value : forall q o beta mt Y M m, Y <> [] -> rows m Y -> mt Y = Ok M -> length M = length Y ->
  exists v, mmdm_compute q o beta mt None (Some Y) = Ok v /\ MMDM (k_ q) beta M Y v.
Proof. intros q o beta mt Y M m H1 H2 H3 H4. eexists. split; [apply (mmdm_value q o beta mt Y M m); auto|reflexivity]. Qed.
Print Assumptions C61_mmdm_value.
Example C61_case : smooth_m (ex_o ex_ref) /\ rows 2 ex_ref /\ rows 2 ex_X /\ agree_m (ex_o ex_ref) ex_X None None /\
  sepm (fun _ _ => True) ex_ref (map ex_f ex_X) 0 /\ sepm (apart 2) ex_ref (map ex_f ex_X) 0 /\ sepmm (apart 2) [[3; 7]; [0; 0]] (map ex_f ex_X) 0.
Proof.
  split; [apply ex_smooth|]. split; [rows_tac|]. split; [rows_tac|]. split; [split; auto|]. split; [split; auto; intros j Hj Hn; auto|].
  assert (Hs : sepY (apart 2) (map ex_f ex_X) 0).
  { intros j Hj Hn. simpl in Hj. destruct j as [|[|j]]; [congruence| |lia]. intros a Ha. destruct a as [|[|a]]; [| |lia]; simpl; lra. }
  split.
  - split; auto. intros r [<-|[<-|[<-|[]]]] a Ha; (destruct a as [|[|a]]; [| |lia]); simpl; lra.
  - split; auto. intros a Ha. (destruct a as [|[|a]]; [| |lia]); simpl; lra.
Qed.

(** for a kernel whose value k(y, y) is not constant the gradient lacks the derivative of that term *)
Definition lin_kern : kern := mkKern (fun x y => nth 0 x 0 * nth 0 y 0) (fun x y _ => nth 0 y 0) (fun _ _ _ _ => 0) (fun _ _ _ _ => 1).
Theorem C61_mmd_gradient_refuted : exists q o X i k G g,
  (forall x y, k_ q x y = k_ q y x) /\ (forall x y, grad_along 1 (fun x => k_ q x y) x (k_dx q x y)) /\
  smooth_m o /\ m_ref o <> [] /\ rows (m_nobj o) (m_ref o) /\ rows (m_nvar o) X /\ (i < length X)%nat /\ (k < m_nvar o)%nat /\
  mmd_derivatives q o X None None false = Ok (G, None) /\
  is_partial_I (MMD2 (k_ q) (m_ref o)) (m_func o) X i k g /\ nth k (nth i G []) 0 <> g.
Proof.
  exists lin_kern, (id_o 1 [[1]]), [[2]], 0%nat, 0%nat. eexists. exists 2.
  split; [intros; simpl; ring|]. split.
  { intros x y phi phi' t0 [HL Hd] E. simpl. specialize (Hd 0%nat ltac:(lia)).
    apply (is_derive_ext (fun t : R => scal (nth 0 y 0) (nth 0 (phi t) 0))); [intros; simplR; apply Rmult_comm|].
    replace (0 + nth 0 y 0 * phi' 0%nat) with (scal (nth 0 y 0) (phi' 0%nat)) by (simplR; ring). apply @is_derive_scal. exact Hd. }
  split; [apply id_smooth|]. split; [simpl; congruence|]. split; [rows_tac|]. split; [rows_tac|]. split; [simpl; lia|]. split; [simpl; lia|].
  split; [reflexivity|]. split.
  - intros h Hh. apply (is_derive_ext (fun t : R => 1 + t * t - 2 * t)).
    { intros t. rewrite (Hh t). unfold mean_k, pairs. simpl. field. }
    unfold coord. simpl. auto_derive; auto. lra.
  - simpl. unfold mmd_dY, row. simpl. lra.
Qed.
Print Assumptions C61_mmd_gradient_refuted.

(** * C62: the Hessian *)
Theorem C62_mmd_hessian_partial : forall q dom o X Y J i k j l, kernel_ok (m_nobj o) dom (k_ q) (k_dx q) (k_dx2 q) (k_dxdy q) ->
  smooth_m o -> m_ref o <> [] -> rows (m_nobj o) (m_ref o) -> rows (m_nvar o) X -> agree_m o X Y J ->
  (i < length X)%nat -> (j < length X)%nat -> (k < m_nvar o)%nat -> (l < m_nvar o)%nat -> sepm dom (m_ref o) (map (m_func o) X) i ->
  (forall a b, (a < m_nobj o)%nat -> (b < m_nobj o)%nat -> i <> j ->
     k_dxdy q (m_func o (nth j X [])) (m_func o (nth i X [])) a b = k_dxdy q (m_func o (nth i X [])) (m_func o (nth j X [])) a b) ->
  exists G H, mmd_derivatives q o X Y J true = Ok (G, Some H) /\
    is_second_I (MMD2 (k_ q) (m_ref o)) (m_func o) X i k j l (nth (j * m_nvar o + l) (nth (i * m_nvar o + k) H []) 0).
Proof. exact mmd_hessian. Qed.
Print Assumptions C62_mmd_hessian_partial.
Theorem C62_mmdm_hessian_partial : forall q dom o s mt X Y J i k j l M, kernel_ok (m_nobj o) dom (k_ q) (k_dx q) (k_dx2 q) (k_dxdy q) ->
  smooth_m o -> rows (m_nvar o) X -> agree_m o X Y J -> mt (map (m_func o) X) = Ok M -> length M = length X -> rows (m_nobj o) M ->
  (i < length X)%nat -> (j < length X)%nat -> (k < m_nvar o)%nat -> (l < m_nvar o)%nat -> sepmm dom M (map (m_func o) X) i ->
  (forall a b, (a < m_nobj o)%nat -> (b < m_nobj o)%nat -> i <> j ->
     k_dxdy q (m_func o (nth j X [])) (m_func o (nth i X [])) a b = k_dxdy q (m_func o (nth i X [])) (m_func o (nth j X [])) a b) ->
  let bg := fst (traced (mm_grad s) (shape_of (map (m_func o) X) M) (mm_beta s)) in
  fst (traced (mm_hess s) (shape_of (map (m_func o) X) M) (mm_beta s)) = bg ->
  exists G H s', mmdm_derivatives q o s mt X Y J true = Ok (G, Some H, s') /\
    is_second_I (MMDM (k_ q) bg M) (m_func o) X i k j l (nth (j * m_nvar o + l) (nth (i * m_nvar o + k) H []) 0).
Proof. exact mmdm_hessian. Qed.
Print Assumptions C62_mmdm_hessian_partial.
(** the condition on the mixed derivative holds for the kernels of the library *)
Theorem C62_shipped_kernels : forall m theta alpha x y a b, length x = m -> length y = m -> apart m x y -> (a < m)%nat -> (b < m)%nat ->
  k_dxdy (rbf_kern theta) y x a b = k_dxdy (rbf_kern theta) x y a b /\
  k_dxdy (rq_kern theta alpha) y x a b = k_dxdy (rq_kern theta alpha) x y a b /\
  k_dxdy (lap_kern theta) y x a b = k_dxdy (lap_kern theta) x y a b.
Proof.
  intros m theta alpha x y a b Hx Hy Ha Hal Hbl. split; [apply rad_dxdy_sym|]. split; [apply rad_dxdy_sym|].
  symmetry. apply (lap_dxdy_sym m); auto.
Qed.
Print Assumptions C62_shipped_kernels.
(** the two smooth kernels need no condition: every pair of points is in the domain *)
Theorem C62_smooth_kernels : forall m theta alpha, 0 <= theta -> 0 < alpha ->
  forall q, q = rbf_kern theta \/ q = rq_kern theta alpha ->
  kernel_ok m (fun _ _ => True) (k_ q) (k_dx q) (k_dx2 q) (k_dxdy q) /\ (forall x y a b, k_dxdy q y x a b = k_dxdy q x y a b) /\
  forall Ref Y i, sepm (fun _ _ => True) Ref Y i.
Proof.
  intros m theta alpha Ht Ha q [->| ->]; (split; [first [apply rbf_ok|apply rq_ok; auto]|]); (split; [intros; apply rad_dxdy_sym|]); intros Ref Y i; split; auto; intros j _ _; auto.
Qed.
Print Assumptions C62_smooth_kernels.
Example C62_case : smooth_m (ex_o ex_ref) /\ sepm (apart 2) ex_ref (map ex_f ex_X) 0 /\
  (forall a b, (a < 2)%nat -> (b < 2)%nat -> k_dxdy (lap_kern 1) (ex_f [0; 1]) (ex_f [2; 3]) a b = k_dxdy (lap_kern 1) (ex_f [2; 3]) (ex_f [0; 1]) a b).
Proof.
  split; [apply ex_smooth|]. split; [apply C61_case|]. intros a b Ha Hb. apply (C62_shipped_kernels 2 1 1); auto.
  intros c Hc. destruct c as [|[|c]]; [| |lia]; simpl; lra.
Qed.

(** for other kernels the blocks off the diagonal are transposed: k(x, y) = (x0 - y0)^2 (x1 + y1) *)
Definition tw_kern : kern := mkKern
  (fun x y => (nth 0 x 0 - nth 0 y 0) * (nth 0 x 0 - nth 0 y 0) * (nth 1 x 0 + nth 1 y 0))
  (fun x y a => match a with 0%nat => 2 * (nth 0 x 0 - nth 0 y 0) * (nth 1 x 0 + nth 1 y 0) | _ => (nth 0 x 0 - nth 0 y 0) * (nth 0 x 0 - nth 0 y 0) end)
  (fun x y a b => match a, b with 0%nat, 0%nat => 2 * (nth 1 x 0 + nth 1 y 0) | 0%nat, _ => 2 * (nth 0 x 0 - nth 0 y 0) | _, 0%nat => 2 * (nth 0 x 0 - nth 0 y 0) | _, _ => 0 end)
  (fun x y a b => match a, b with 0%nat, 0%nat => - (2 * (nth 1 x 0 + nth 1 y 0)) | 0%nat, _ => 2 * (nth 0 x 0 - nth 0 y 0) | _, 0%nat => - (2 * (nth 0 x 0 - nth 0 y 0)) | _, _ => 0 end).
Lemma tw_d1 (u v : R -> R) u' v' t0 c d : is_derive u t0 u' -> is_derive v t0 v' ->
  is_derive (fun t : R => (u t - c) * (u t - c) * (v t + d)) t0 (0 + 2 * (u t0 - c) * (v t0 + d) * u' + (u t0 - c) * (u t0 - c) * v').
Proof.
  intros D0 D1. auto_derive; [repeat split; eauto; eexists; eauto|]. rewrite (is_derive_unique (fun x : R => u x) _ _ D0), (is_derive_unique (fun x : R => v x) _ _ D1). ring.
Qed.
Lemma tw_d2 (u v : R -> R) u' v' t0 c d : is_derive u t0 u' -> is_derive v t0 v' ->
  is_derive (fun t : R => 2 * (u t - c) * (v t + d)) t0 (0 + 2 * (v t0 + d) * u' + 2 * (u t0 - c) * v').
Proof.
  intros D0 D1. auto_derive; [repeat split; eauto; eexists; eauto|]. rewrite (is_derive_unique (fun x : R => u x) _ _ D0), (is_derive_unique (fun x : R => v x) _ _ D1). ring.
Qed.
Lemma tw_d3 (u : R -> R) u' v' t0 c : is_derive u t0 u' ->
  is_derive (fun t : R => (u t - c) * (u t - c)) t0 (0 + 2 * (u t0 - c) * u' + 0 * v').
Proof.
  intros D0. auto_derive; [repeat split; eauto; eexists; eauto|]. rewrite (is_derive_unique (fun x : R => u x) _ _ D0). ring.
Qed.
Lemma tw_d4 (u v : R -> R) u' v' t0 c d : is_derive u t0 u' -> is_derive v t0 v' ->
  is_derive (fun t : R => 2 * (c - u t) * (d + v t)) t0 (0 + - (2 * (d + v t0)) * u' + 2 * (c - u t0) * v').
Proof.
  intros D0 D1. auto_derive; [repeat split; eauto; eexists; eauto|]. rewrite (is_derive_unique (fun x : R => u x) _ _ D0), (is_derive_unique (fun x : R => v x) _ _ D1). ring.
Qed.
Lemma tw_d5 (u : R -> R) u' v' t0 c : is_derive u t0 u' ->
  is_derive (fun t : R => (c - u t) * (c - u t)) t0 (0 + - (2 * (c - u t0)) * u' + 0 * v').
Proof.
  intros D0. auto_derive; [repeat split; eauto; eexists; eauto|]. rewrite (is_derive_unique (fun x : R => u x) _ _ D0). ring.
Qed.
Lemma tw_ok : kernel_ok 2 (fun _ _ => True) (k_ tw_kern) (k_dx tw_kern) (k_dx2 tw_kern) (k_dxdy tw_kern).
Proof.
  split; auto.
  - intros x y _ _. simpl. ring.
  - exists 0. intros x _. simpl. ring.
  - intros. apply filter_forall. auto.
  - intros x y Hx Hy _ phi phi' t0 [HL Hd] <-. pose proof (Hd 0%nat ltac:(lia)) as D0. pose proof (Hd 1%nat ltac:(lia)) as D1.
    apply (tw_d1 (fun t => nth 0 (phi t) 0) (fun t => nth 1 (phi t) 0)); auto.
  - intros x y a Hx Hy _ Ha phi phi' t0 [HL Hd] <-. pose proof (Hd 0%nat ltac:(lia)) as D0. pose proof (Hd 1%nat ltac:(lia)) as D1.
    destruct a as [|[|a]]; [| |lia].
    + apply (tw_d2 (fun t => nth 0 (phi t) 0) (fun t => nth 1 (phi t) 0)); auto.
    + apply (tw_d3 (fun t => nth 0 (phi t) 0)); auto.
  - intros x y a Hx Hy _ Ha phi phi' t0 [HL Hd] <-. pose proof (Hd 0%nat ltac:(lia)) as D0. pose proof (Hd 1%nat ltac:(lia)) as D1.
    destruct a as [|[|a]]; [| |lia].
    + apply (tw_d4 (fun t => nth 0 (phi t) 0) (fun t => nth 1 (phi t) 0)); auto.
    + apply (tw_d5 (fun t => nth 0 (phi t) 0)); auto.
Qed.
Theorem C62_mmd_hessian_refuted : exists q o X i k j l G H c,
  kernel_ok (m_nobj o) (fun _ _ => True) (k_ q) (k_dx q) (k_dx2 q) (k_dxdy q) /\
  smooth_m o /\ m_ref o <> [] /\ rows (m_nobj o) (m_ref o) /\ rows (m_nvar o) X /\
  (i < length X)%nat /\ (j < length X)%nat /\ (k < m_nvar o)%nat /\ (l < m_nvar o)%nat /\
  mmd_derivatives q o X None None true = Ok (G, Some H) /\
  is_second_I (MMD2 (k_ q) (m_ref o)) (m_func o) X i k j l c /\ (exists D : R -> R, locally (coord X j l) (fun t => is_partial_I (MMD2 (k_ q) (m_ref o)) (m_func o) (set_coord X j l t) i k (D t))) /\
  nth (j * m_nvar o + l) (nth (i * m_nvar o + k) H []) 0 <> c.
Proof.
  set (o := id_o 2 [[0; 0]]). set (X := [[1; 0]; [0; 0]]).
  assert (HR : rows 2 (m_ref o)) by rows_tac. assert (HR0 : m_ref o <> []) by (simpl; congruence). assert (HX : rows 2 X) by rows_tac.
  destruct (mmd_deriv_value tw_kern o X None None true (id_smooth 2 _) HR0 HX ltac:(unfold X; congruence) ltac:(split; auto)) as (G & H & E & EG & EH).
  exists tw_kern, o, X, 0%nat, 0%nat, 1%nat, 1%nat, G, H, 1.
  split; [apply tw_ok|]. split; [apply id_smooth|]. split; auto. split; auto. split; auto. split; [simpl; lia|]. split; [simpl; lia|]. split; [simpl; lia|]. split; [simpl; lia|]. split; [exact E|].
  assert (Hs := id_smooth 2 [[0; 0]]). fold o in Hs.
  pose proof (gen_second 2 2 2 (m_func o) (m_jac o) (m_hess o) (sx_maps o Hs) (sx_jac o Hs) (sx_hess o Hs) (Vm tw_kern (m_ref o)) (fun Y => mmd_dY tw_kern Y (m_ref o)) (c2 tw_kern (m_ref o)) (sepm (fun _ _ => True) (m_ref o))) as D.
  assert (Hsep : forall Y i, sepm (fun _ _ => True) (m_ref o) Y i) by (intros Y i; split; [intros j _ _|]; auto).
  split; [|split].
  - replace 1 with (sumn 2 (fun a => sumn 2 (fun b => m_jac o (nth 0 X []) a 0 * c2 tw_kern (m_ref o) (map (m_func o) X) 0 1 a b * m_jac o (nth 1 X []) b 1))
      + (if (0 =? 1)%nat then sumn 2 (fun a => mmd_dY tw_kern (map (m_func o) X) (m_ref o) 0 a * m_hess o (nth 0 X []) a 0 1) else 0)).
    + apply D; auto; try lia.
      * intros phi phi' t0 Y' i' Hp HY HL Hi' E' Hsp. apply (plain_G 2 (fun _ _ => True) tw_kern tw_ok (m_ref o) HR HR0); auto. lia.
      * intros phi phi' t0 Y' i' j' a Hp HY HL Hi' Hj' Ha E' Hsp. apply (plain_G2 2 (fun _ _ => True) tw_kern tw_ok (m_ref o) HR HR0); auto; lia.
      * intros phi phi' t0 Y' i' j' Hp HY HL Hi' Hj' E' Hsp. apply (plain_open 2 (fun _ _ => True) tw_kern tw_ok (m_ref o) HR phi phi'); auto; lia.
    + unfold c2, row. simpl. field.
  - eexists. apply filter_forall. intros t.
    apply (gen_partial 2 2 2 (m_func o) (m_jac o) (sx_maps o Hs) (sx_jac o Hs) (Vm tw_kern (m_ref o)) (fun Y => mmd_dY tw_kern Y (m_ref o)) (sepm (fun _ _ => True) (m_ref o))); auto; try lia.
    + intros phi phi' t0 Y' i' Hp HY HL Hi' E' Hsp. apply (plain_G 2 (fun _ _ => True) tw_kern tw_ok (m_ref o) HR HR0); auto. lia.
    + rows_tac.
  - rewrite (EH 0%nat 0%nat 1%nat 1%nat) by (simpl; lia). unfold assemble, mmd_dY2, row. simpl. lra.
Qed.
Print Assumptions C62_mmd_hessian_refuted.

(** * C63: transposed decision matrices *)
Theorem C63_rows : forall n X, rows n X -> X <> [] -> check_X n X = X.
Proof. exact check_ok. Qed.
Print Assumptions C63_rows.
(** one column per point is the same as one row per point, unless the matrix is square *)
Theorem C63_transposed_partial : forall q o X Y J hes, X <> [] -> rows (m_nvar o) X -> (0 < m_nvar o)%nat -> length X <> m_nvar o ->
  mmd_derivatives q o (transpose X) Y J hes = mmd_derivatives q o X Y J hes.
Proof.
  intros q o X Y J hes H0 HX Hn HN. unfold mmd_derivatives. rewrite (check_transposed (m_nvar o) X), (check_ok (m_nvar o) X) by auto. reflexivity.
Qed.
Print Assumptions C63_transposed_partial.
Example C63_case : rows 2 [[1; 2]; [3; 4]; [5; 6]] /\ transpose [[1; 2]; [3; 4]; [5; 6]] = [[1; 3; 5]; [2; 4; 6]].
Proof. split; [rows_tac|reflexivity]. Qed.
Theorem C63_transposed_refuted : exists q o X G G', smooth_m o /\ X <> [] /\ rows (m_nvar o) X /\ (0 < m_nvar o)%nat /\
  mmd_derivatives q o X None None false = Ok (G, None) /\
  mmd_derivatives q o (transpose X) None None false = Ok (G', None) /\ G <> G'.
Proof.
  exists (mkKern (fun x y => sqnorm x y) (fun x y a => 2 * (nth a x 0 - nth a y 0)) (fun _ _ a b => if (a =? b)%nat then 2 else 0) (fun _ _ a b => if (a =? b)%nat then -2 else 0)),
    (id_o 2 [[0; 0]]), [[1; 2]; [3; 4]]. eexists. eexists. split; [apply id_smooth|]. split; [congruence|]. split; [rows_tac|]. split; [simpl; lia|]. split; [reflexivity|]. split; [reflexivity|].
  intros E. apply (f_equal (fun G => nth 1 (nth 0 G []) 0)) in E. revert E. unfold mmd_dY, row. simpl. lra.
Qed.
Print Assumptions C63_transposed_refuted.

(** * C44 *)
(** as long as beta keeps its value, through any history of evaluations, the derivatives are those
    of the value that [compute] returns *)
Theorem C44_unchanged_beta_partial : forall q dom o beta h mt X Y J hes i k M, kernel_ok (m_nobj o) dom (k_ q) (k_dx q) (k_dx2 q) (k_dxdy q) ->
  (forall b, In (SetB b) h -> b = beta) ->
  smooth_m o -> rows (m_nvar o) X -> agree_m o X Y J -> mt (map (m_func o) X) = Ok M -> length M = length X -> rows (m_nobj o) M ->
  (i < length X)%nat -> (k < m_nvar o)%nat -> sepmm dom M (map (m_func o) X) i ->
  let s := run q o (new_mmdm beta) h in
  mm_beta s = beta /\ exists G H s', mmdm_derivatives q o s mt X Y J hes = Ok (G, H, s') /\
    is_partial_I (MMDM (k_ q) (mm_beta s) M) (m_func o) X i k (nth k (nth i G []) 0).
Proof.
  intros q dom o beta h mt X Y J hes i k M HK Hb Hs HX Hag Hmt HL HM Hi Hk Hsep s.
  destruct (run_good q o h (new_mmdm beta)) as [[G1 G2] Eb]; [split; intros e []|auto|]. fold s in G1, G2, Eb. simpl in Eb. split; auto.
  destruct (mmdm_gradient q dom o s mt X Y J hes i k M HK Hs HX Hag Hmt HL HM Hi Hk Hsep) as (G & H & s' & E & HP). exists G, H, s'. split; auto.
  rewrite (proj1 (traced_uniform _ _ _ G1)) in HP. exact HP.
Qed.
Print Assumptions C44_unchanged_beta_partial.
(** the first call for a shape uses the current beta *)
Theorem C44_first_call_partial : forall q dom o s mt X Y J hes i k M, kernel_ok (m_nobj o) dom (k_ q) (k_dx q) (k_dx2 q) (k_dxdy q) ->
  smooth_m o -> rows (m_nvar o) X -> agree_m o X Y J -> mt (map (m_func o) X) = Ok M -> length M = length X -> rows (m_nobj o) M ->
  (i < length X)%nat -> (k < m_nvar o)%nat -> sepmm dom M (map (m_func o) X) i ->
  lookup (mm_grad s) (shape_of (map (m_func o) X) M) = None ->
  exists G H s', mmdm_derivatives q o s mt X Y J hes = Ok (G, H, s') /\
    is_partial_I (MMDM (k_ q) (mm_beta s) M) (m_func o) X i k (nth k (nth i G []) 0).
Proof.
  intros q dom o s mt X Y J hes i k M HK Hs HX Hag Hmt HL HM Hi Hk Hsep Hl.
  destruct (mmdm_gradient q dom o s mt X Y J hes i k M HK Hs HX Hag Hmt HL HM Hi Hk Hsep) as (G & H & s' & E & HP). exists G, H, s'. split; auto.
  unfold traced in HP. rewrite Hl in HP. exact HP.
Qed.
Print Assumptions C44_first_call_partial.
(** later calls for the same shape return derivatives for the beta of the first one, whatever beta is now *)
Theorem C44_later_calls : forall q dom o s mt X Y J hes X2 Y2 J2 hes2 mt2 b i k M M2 G H s', kernel_ok (m_nobj o) dom (k_ q) (k_dx q) (k_dx2 q) (k_dxdy q) ->
  smooth_m o -> rows (m_nvar o) X -> X <> [] -> agree_m o X Y J -> mt (map (m_func o) X) = Ok M ->
  mmdm_derivatives q o s mt X Y J hes = Ok (G, H, s') -> lookup (mm_grad s) (shape_of (map (m_func o) X) M) = None ->
  rows (m_nvar o) X2 -> agree_m o X2 Y2 J2 -> mt2 (map (m_func o) X2) = Ok M2 -> length M2 = length X2 -> rows (m_nobj o) M2 ->
  shape_of (map (m_func o) X2) M2 = shape_of (map (m_func o) X) M ->
  (i < length X2)%nat -> (k < m_nvar o)%nat -> sepmm dom M2 (map (m_func o) X2) i ->
  exists G2 H2 s2, mmdm_derivatives q o (set_beta s' b) mt2 X2 Y2 J2 hes2 = Ok (G2, H2, s2) /\
    is_partial_I (MMDM (k_ q) (mm_beta s) M2) (m_func o) X2 i k (nth k (nth i G2 []) 0).
Proof.
  intros q dom o s mt X Y J hes X2 Y2 J2 hes2 mt2 b i k M M2 G H s' HK Hs HX H0 Hag Hmt E Hl HX2 Hag2 Hmt2 HL2 HM2 Hsh Hi Hk Hsep.
  destruct (mmdm_gradient q dom o (set_beta s' b) mt2 X2 Y2 J2 hes2 i k M2 HK Hs HX2 Hag2 Hmt2 HL2 HM2 Hi Hk Hsep) as (G2 & H2 & s2 & E2 & HP).
  exists G2, H2, s2. split; auto. simpl in HP. rewrite Hsh in HP.
  assert (Ec : mm_grad s' = snd (traced (mm_grad s) (shape_of (map (m_func o) X) M) (mm_beta s))).
  { revert E. unfold mmdm_derivatives. rewrite check_ok by auto. rewrite (agree_m_YJ o X Y J) by auto. cbn [bind]. cbv zeta. rewrite Hmt. cbn [bind].
    destruct (negb _); [discriminate|]. destruct (traced (mm_grad s) _ _) as [bg cg]. destruct hes; [destruct (traced (mm_hess s) _ _)|]; intros E; injection E as _ _ <-; reflexivity. }
  rewrite Ec, traced_sticky in HP. unfold traced in HP. rewrite Hl in HP. exact HP.
Qed.
Print Assumptions C44_later_calls.
(** the claim is false: the kernel and the change of beta are those of the library (bootstrap.py 182) *)
Theorem C44_current_beta_refuted : exists q o mt X M i k G s' G2 s2,
  kernel_ok (m_nobj o) (fun _ _ => True) (k_ q) (k_dx q) (k_dx2 q) (k_dxdy q) /\ smooth_m o /\ rows (m_nvar o) X /\ mt (map (m_func o) X) = Ok M /\
  length M = length X /\ rows (m_nobj o) M /\ (i < length X)%nat /\ (k < m_nvar o)%nat /\
  mmdm_derivatives q o (new_mmdm (/ 2)) mt X None None false = Ok (G, None, s') /\
  mmdm_derivatives q o (set_beta s' (mm_beta s' * 0.8)) mt X None None false = Ok (G2, None, s2) /\
  ~ is_partial_I (MMDM (k_ q) (mm_beta s' * 0.8) M) (m_func o) X i k (nth k (nth i G2 []) 0).
Proof.
  set (o := id_o 1 [[0]; [1]]). set (X := [[1]; [0]]). set (M := [[0]; [1]]). set (mt := fun _ : list (list R) => Ok M). set (q := rbf_kern 1).
  assert (HK := rbf_ok 1 1). assert (Hs := id_smooth 1 [[0]; [1]]). fold o in Hs. assert (HX : rows 1 X) by rows_tac. assert (HM : rows 1 M) by rows_tac.
  assert (Hag : agree_m o X None None) by (split; auto). assert (H0 : X <> []) by (unfold X; congruence).
  assert (Hsep : sepmm (fun _ _ => True) M (map (m_func o) X) 0) by (split; [intros j _ _|]; auto).
  destruct (mmdm_deriv_value q o (new_mmdm (/ 2)) mt X None None false M Hs HX H0 Hag eq_refl eq_refl) as (G & H & s' & E & _).
  assert (Hb : mm_beta s' = / 2) by (destruct (deriv_state _ _ _ _ _ _ _ _ _ _ _ E) as [Eb _]; exact Eb).
  destruct (C44_later_calls q (fun _ _ => True) o (new_mmdm (/ 2)) mt X None None false X None None false mt (mm_beta s' * 0.8) 0 0 M M G None s' HK Hs HX H0 Hag eq_refl E eq_refl HX Hag eq_refl eq_refl HM eq_refl ltac:(simpl; lia) ltac:(simpl; lia) Hsep) as (G2 & H2 & s2 & E2 & HP).
  destruct (mmdm_deriv_value q o (set_beta s' (mm_beta s' * 0.8)) mt X None None false M Hs HX H0 Hag eq_refl eq_refl) as (G3 & H3 & s3 & E3 & _).
  rewrite E3 in E2. injection E2 as -> <- ->.
  exists q, o, mt, X, M, 0%nat, 0%nat, G, s', G2, s2. split; [exact HK|]. split; auto. split; auto. split; [reflexivity|]. split; [reflexivity|]. split; auto. split; [simpl; lia|]. split; [simpl; lia|].
  split; [exact E|]. split; [exact E3|]. intros HQ.
  (* the derivatives for the two values of beta differ *)
  pose proof (fun b => gen_partial 1 1 2 (m_func o) (m_jac o) (sx_maps o Hs) (sx_jac o Hs) (Vmm q b M) (fun Y => mmdm_dY q b Y M) (sepmm (fun _ _ => True) M)) as GP.
  assert (GP' : forall b, is_partial_I (MMDM (k_ q) b M) (m_func o) X 0 0 (sumn 1 (fun a => mmdm_dY q b (map (m_func o) X) M 0 a * m_jac o (nth 0 X []) a 0))).
  { intros b. apply GP; auto. intros phi phi' t0 Y' i' Hp HY HL' Hi' E' Hsp. apply (matched_G 1 (fun _ _ => True) q HK b M HM); auto. }
  pose proof (partial_uniq (m_func o) (Vmm q (/ 2) M) X 0 0 _ _ HP (GP' _)) as U1.
  pose proof (partial_uniq (m_func o) (Vmm q (mm_beta s' * 0.8) M) X 0 0 _ _ HQ (GP' _)) as U2.
  rewrite U1, Hb in U2. revert U2. unfold mmdm_dY, row, q, rbf_kern. simpl. unfold rad_dx, rbf1. simpl.
  replace (- (1) * ((1 - 0) * ((1 - 0) * 1) + 0)) with (-1) by ring. replace (- (1) * ((1 - 1) * ((1 - 1) * 1) + 0)) with 0 by ring.
  pose proof (exp_pos (-1)) as Hp. lra.
Qed.
Print Assumptions C44_current_beta_refuted.
Example C44_case : sepmm (fun _ _ => True) [[0]; [1]] [[1]; [0]] 0 /\ forall b, In (SetB b) [SetB 2; Derive (fun _ => Ok [[0]; [1]]) [[1]; [0]] None None true; SetB 2] -> b = 2.
Proof. split; [split; [intros j _ _|]; auto|]. intros b [E|[E|[E|[]]]]; congruence. Qed.

(** * C64: trial evaluations of the line searches *)
(** the matching is left alone if the reference set itself is told not to match again *)
Theorem C64_no_rematch_partial : forall lsa hausdorff kmedoids n_obj s Y, rs_rematch (ma_ref s) = false -> rs_matched (ma_ref s) <> None ->
  trial lsa hausdorff kmedoids n_obj s Y = Ok (mkMatcher true (ma_ref s)).
Proof.
  intros lsa hausdorff kmedoids n_obj s Y H1 H2. unfold trial, match_Y. cbn [ma_ref]. rewrite H1. destruct (rs_matched (ma_ref s)); [reflexivity|congruence].
Qed.
Print Assumptions C64_no_rematch_partial.
(** with one component, a trial evaluation only rearranges the targets *)
Theorem C64_rearranged_partial : forall lsa hausdorff kmedoids n_obj s Y s' L M mi, lsa_ok lsa -> kmedoids_ok kmedoids -> length (rs_ref (ma_ref s)) = 1%nat ->
  rs_medoids (ma_ref s) = [Some L] -> rs_matched (ma_ref s) = Some (M, mi) -> Permutation L M -> length Y = length L ->
  trial lsa hausdorff kmedoids n_obj s Y = Ok s' -> Permutation (reference_set (ma_ref s')) (reference_set (ma_ref s)).
Proof.
  intros lsa hausdorff kmedoids n_obj s Y s' L M mi H1 H2 H3 H4 H5 H6 H7 E. unfold trial in E. cbn [ma_ref] in E.
  destruct (match_Y lsa hausdorff kmedoids n_obj (ma_ref s) Y) as [r|] eqn:Em; [|discriminate]. cbn [bind] in E. injection E as <-. cbn [ma_ref].
  apply (single_match lsa hausdorff kmedoids n_obj (ma_ref s) Y r L M mi); auto.
Qed.
Print Assumptions C64_rearranged_partial.
(** a solver that is right on the one problem it answers *)
Definition tr_ref : list (list R) := [[0]; [10]].
Definition tr_Y : list (list R) := [[12]; [9]].
Definition tr_lsa (C : list (list R)) : res (list nat * list nat) :=
  if list_eq_dec (list_eq_dec Req_EM_T) C (cdist tr_Y tr_ref) then Ok ([0; 1], [1; 0])%nat else Exn ValueError.
Lemma tr_cost : cdist tr_Y tr_ref = [[12; 2]; [9; 1]].
Proof.
  assert (D : forall a b c, 0 <= c -> (a - b) * (a - b) = c * c -> dist2 [a] [b] = c).
  { intros a b c Hc E. unfold dist2. cbn [zip_with fold_right]. rewrite E, Rplus_0_r. apply sqrt_square. auto. }
  unfold cdist, tr_Y, tr_ref. cbn [map]. rewrite (D 12 0 12), (D 12 10 2), (D 9 0 9), (D 9 10 1); try lra. auto.
Qed.
Lemma tr_lsa_ok : lsa_ok tr_lsa.
Proof.
  intros C m a Hr E. unfold tr_lsa in E. destruct (list_eq_dec _ C (cdist tr_Y tr_ref)) as [->|]; [|discriminate]. injection E as <-. rewrite tr_cost in *.
  assert (m = 2%nat). { symmetry. apply (Hr [12; 2]). simpl; auto. } subst m. split.
  - repeat split; cbn [fst snd]; auto. repeat constructor; lia. intros i [<-|[<-|[]]]; simpl; lia. repeat constructor; simpl; lia. intros i [<-|[<-|[]]]; simpl; lia.
  - intros [r c] (L1 & L2 & S1 & B1 & N2 & B2). cbn [fst snd] in *. simpl in L1, L2.
    destruct r as [|r0 [|r1 [|]]]; simpl in L1; try lia. destruct c as [|c0 [|c1 [|]]]; simpl in L2; try lia.
    inversion S1 as [|? ? S2 F]; subst. inversion F as [|? ? Hlt _]; subst. pose proof (B1 r0 ltac:(simpl; auto)). pose proof (B1 r1 ltac:(simpl; auto)). simpl in H, H0.
    assert (r0 = 0%nat) by lia. assert (r1 = 1%nat) by lia. subst r0 r1.
    pose proof (B2 c0 ltac:(simpl; auto)). pose proof (B2 c1 ltac:(simpl; auto)). inversion N2 as [|? ? Hn _]; subst. simpl in Hn.
    destruct c0 as [|[|c0]]; [| |lia]; (destruct c1 as [|[|c1]]; [| |lia]); try (exfalso; apply Hn; auto; fail); unfold total; simpl; lra.
Qed.
Theorem C64_trial_refuted : exists lsa hausdorff kmedoids s Y s', lsa_ok lsa /\ kmedoids_ok kmedoids /\ wf (ma_ref s) /\ consistent (ma_ref s) /\
  rs_matched (ma_ref s) <> None /\ trial lsa hausdorff kmedoids 1 s Y = Ok s' /\ reference_set (ma_ref s') <> reference_set (ma_ref s).
Proof.
  exists tr_lsa, (fun _ _ => Exn ValueError), (fun _ _ => Exn ValueError),
    (mkMatcher true (mkRS [tr_ref] [[1]] (Some [[0; 1]%nat]) true [Some tr_ref] (Some (tr_ref, [Some (0, 0); Some (0, 1)]%nat)))), tr_Y. eexists.
  split; [exact tr_lsa_ok|]. split; [intros comp k r E; discriminate|]. split; [split; [reflexivity|simpl; congruence]|]. split; [|split; [simpl; congruence|]].
  - exists tr_ref, [Some (0, 0); Some (0, 1)]%nat. split; [reflexivity|]. split; [reflexivity|]. split.
    + intros k Hk. simpl in Hk. destruct k as [|[|k]]; [| |lia]; [exists 0%nat, 0%nat, tr_ref|exists 0%nat, 1%nat, tr_ref]; repeat split; auto; simpl; lia.
    + intros k k' p E E'. destruct k as [|[|k]]; destruct k' as [|[|k']]; simpl in *; auto; try congruence; try (destruct k; discriminate); try (destruct k'; discriminate).
  - split.
    + unfold trial, match_Y. cbn. unfold match_rows, tr_lsa. destruct (list_eq_dec _ (cdist tr_Y tr_ref) (cdist tr_Y tr_ref)); [|congruence]. cbn. reflexivity.
    + cbn. intros E. injection E. intros. lra.
Qed.
Print Assumptions C64_trial_refuted.
Example C64_case : exists L M : list (list R), Permutation L M /\ length tr_Y = length L /\ L <> M.
Proof. exists [[0]; [10]], [[10]; [0]]. split; [apply perm_swap|]. split; auto. intros E. injection E. intros. lra. Qed.
