(** C44, continued: which beta a derivative call uses after any history of the indicator. *)
From Coq Require Import List Arith Bool Reals Lia Lra.
From Coquelicot Require Import Coquelicot.
From Verif Require Import Num Exn ListAux HVDSpec HVDProof NewtonModel NewtonProof HVXModel HVXSpec HVXProof
  RefModel RefProof RefSpec RefTop IndSpec IndModel IndProof IndGD IndIGD IndTop MMDSpec MMDModel MMDProof MMDKern MMDTop MMDSym PropsMMD.
Import ListNotations.
Open Scope R_scope.

Definition Shape_dec (s t : nat * nat * nat * nat) : {s = t} + {s <> t}.
Proof. repeat decide equality. Defined.
(** the numbers of rows and columns of the objective vectors and of the matched rows, if the call gets to its kernels *)
Definition called (o : mmd) (mt : list (list R) -> res (list (list R))) (X : list (list R)) (Y : option (list (list R))) (J : option (nat -> nat -> nat -> R)) : option (nat * nat * nat * nat) :=
  let X := check_X (m_nvar o) X in
  match mmd_YJ o X Y J with
  | Ok (Y, _) => match mt Y with
                 | Ok M => if ((length Y =? length X) && (length M =? length X))%nat then Some (length Y, n_cols Y, length M, n_cols M) else None
                 | Exn _ => None
                 end
  | Exn _ => None
  end.
(** the value of beta when a call of the history first has the given shape; [hess]: only calls that ask for the Hessian *)
Fixpoint first_use (o : mmd) (hess : bool) (beta : R) (h : list op) (sh : nat * nat * nat * nat) : option R :=
  match h with
  | [] => None
  | SetB b :: h => first_use o hess b h sh
  | Derive mt X Y J hes :: h =>
      match called o mt X Y J with
      | Some t => if Shape_dec t sh then (if negb hess || hes then Some beta else first_use o hess beta h sh) else first_use o hess beta h sh
      | None => first_use o hess beta h sh
      end
  end.
(** the last value of beta *)
Fixpoint last_beta (beta : R) (h : list op) : R :=
  match h with [] => beta | SetB b :: h => last_beta b h | Derive _ _ _ _ _ :: h => last_beta beta h end.

Lemma shape_eqb_iff s t : shape_eqb s t = true <-> s = t.
Proof.
  destruct s as [[[a b] c] d], t as [[[a' b'] c'] d']. unfold shape_eqb. rewrite !andb_true_iff, !Nat.eqb_eq. split; [intros (((-> & ->) & ->) & ->); auto|intros E; injection E; auto].
Qed.
Lemma lookup_traced c s b t : lookup (snd (traced c s b)) t = match lookup c t with Some v => Some v | None => if Shape_dec s t then Some b else None end.
Proof.
  unfold traced. destruct (lookup c s) as [v|] eqn:E; cbn [snd].
  - destruct (lookup c t) eqn:Et; auto. destruct (Shape_dec s t) as [->|]; [congruence|auto].
  - unfold lookup at 1. cbn [find fst]. destruct (shape_eqb s t) eqn:Es.
    + apply shape_eqb_iff in Es. subst t. rewrite E. destruct (Shape_dec s s); [reflexivity|congruence].
    + fold (lookup c t). destruct (Shape_dec s t) as [->|]; [rewrite (proj2 (shape_eqb_iff t t) eq_refl) in Es; discriminate|]. unfold lookup. destruct (find _ c); auto.
Qed.
Lemma step_called q o s mt X Y J hes :
  step q o s (Derive mt X Y J hes) = match called o mt X Y J with
    | Some sh => mkMM (mm_beta s) (snd (traced (mm_grad s) sh (mm_beta s))) (if hes then snd (traced (mm_hess s) sh (mm_beta s)) else mm_hess s)
    | None => s end.
Proof.
  cbn [step]. unfold mmdm_derivatives, called. cbv zeta. destruct (mmd_YJ _ _ _ _) as [[Y' J']|]; cbn [bind]; auto. destruct (mt Y') as [M|]; cbn [bind]; auto.
  destruct (((length Y' =? length (check_X (m_nvar o) X))%nat && (length M =? length (check_X (m_nvar o) X))%nat)) eqn:E; cbn [negb]; auto.
  unfold shape_of. destruct (traced (mm_grad s) _ (mm_beta s)) as [bg cg]. destruct hes; auto. destruct (traced (mm_hess s) _ (mm_beta s)) as [bh ch]. auto.
Qed.
Lemma run_lookup q o sh h : forall s,
  mm_beta (run q o s h) = last_beta (mm_beta s) h /\
  lookup (mm_grad (run q o s h)) sh = match lookup (mm_grad s) sh with Some v => Some v | None => first_use o false (mm_beta s) h sh end /\
  lookup (mm_hess (run q o s h)) sh = match lookup (mm_hess s) sh with Some v => Some v | None => first_use o true (mm_beta s) h sh end.
Proof.
  induction h as [|e h IH]; intros s.
  - cbn. destruct (lookup (mm_grad s) sh), (lookup (mm_hess s) sh); auto.
  - unfold run. cbn [fold_left]. fold (run q o (step q o s e) h). destruct (IH (step q o s e)) as (I1 & I2 & I3). rewrite I1, I2, I3. clear I1 I2 I3 IH.
    destruct e as [b|mt X Y J hes]; [cbn [step set_beta mm_beta mm_grad mm_hess last_beta first_use]; auto|]. rewrite step_called. cbn [last_beta first_use]. destruct (called o mt X Y J) as [t|]; auto.
    cbn [mm_beta mm_grad mm_hess]. rewrite lookup_traced. split; auto. split.
    + destruct (lookup (mm_grad s) sh); auto. destruct (Shape_dec t sh); auto.
    + destruct hes; [rewrite lookup_traced|]; destruct (lookup (mm_hess s) sh); auto; destruct (Shape_dec t sh); auto.
Qed.

(** the gradient after any history of a new indicator is the one of the beta that was set when a
    call first had this shape; if there was none, of the current beta *)
Theorem C44_history_partial : forall q dom o beta h mt X Y J hes i k M, kernel_ok (m_nobj o) dom (k_ q) (k_dx q) (k_dx2 q) (k_dxdy q) ->
  smooth_m o -> rows (m_nvar o) X -> agree_m o X Y J -> mt (map (m_func o) X) = Ok M -> length M = length X -> rows (m_nobj o) M ->
  (i < length X)%nat -> (k < m_nvar o)%nat -> sepmm dom M (map (m_func o) X) i ->
  let b := match first_use o false beta h (length (map (m_func o) X), n_cols (map (m_func o) X), length M, n_cols M) with Some b => b | None => last_beta beta h end in
  exists G H s', mmdm_derivatives q o (run q o (new_mmdm beta) h) mt X Y J hes = Ok (G, H, s') /\
    is_partial_I (MMDM (k_ q) b M) (m_func o) X i k (nth k (nth i G []) 0).
Proof.
  intros q dom o beta h mt X Y J hes i k M HK Hs HX Hag Hmt HL HM Hi Hk Hsep b. set (s := run q o (new_mmdm beta) h).
  destruct (mmdm_gradient q dom o s mt X Y J hes i k M HK Hs HX Hag Hmt HL HM Hi Hk Hsep) as (G & H & s' & E & HP). exists G, H, s'. split; auto.
  replace b with (fst (traced (mm_grad s) (shape_of (map (m_func o) X) M) (mm_beta s))); auto.
  destruct (run_lookup q o (shape_of (map (m_func o) X) M) h (new_mmdm beta)) as (E1 & E2 & _). cbn [new_mmdm mm_grad mm_beta lookup find] in E1, E2.
  unfold traced. fold s in E1, E2. rewrite E2. unfold b, shape_of. destruct (first_use _ _ _ _ _); auto.
Qed.
Print Assumptions C44_history_partial.
(** the Hessian has its own record of first uses *)
Theorem C44_history_hessian : forall q o beta h sh,
  let s := run q o (new_mmdm beta) h in
  fst (traced (mm_hess s) sh (mm_beta s)) = match first_use o true beta h sh with Some b => b | None => last_beta beta h end.
Proof.
  intros q o beta h sh s. destruct (run_lookup q o sh h (new_mmdm beta)) as (E1 & _ & E3). fold s in E1, E3. cbn [new_mmdm mm_hess mm_beta lookup find] in E1, E3. unfold traced. rewrite E3. destruct (first_use _ _ _ _ _); auto.
Qed.
Print Assumptions C44_history_hessian.
(** two calls of one shape with different values of beta in between, then a call of another shape *)
Example C44_history_case : let o := id_o 1 [[0]; [1]] in let mt := fun _ : list (list R) => Ok [[0]; [1]] in let mt1 := fun _ : list (list R) => Ok [[0]] in
  let h := [SetB 2; Derive mt [[1]; [0]] None None true; SetB 3; Derive mt [[1]; [0]] None None false] in
  first_use o false 1 h (2, 1, 2, 1)%nat = Some 2 /\ first_use o false 1 h (1, 1, 1, 1)%nat = None /\ last_beta 1 h = 3 /\ called o mt1 [[1]] None None = Some (1, 1, 1, 1)%nat.
Proof. cbn. repeat split. Qed.
