From Coq Require Import List Arith Bool Reals Lia Lra.
From Verif Require Import Num Exn HVModel HVDModel HVDSpec HVDTop HVXModel.
Import ListNotations.
Open Scope R_scope.

Lemma sumn_ext n f g : (forall i, (i < n)%nat -> f i = g i) -> sumn n f = sumn n g.
Proof. induction n as [|n IH]; simpl; intros E; auto. rewrite IH, E; auto. Qed.
Lemma sumn_zero n f : (forall i, (i < n)%nat -> f i = 0) -> sumn n f = 0.
Proof. induction n as [|n IH]; simpl; intros E; auto. rewrite IH, E by auto. ring. Qed.
Lemma sumn_add n p f : sumn (n + p) f = sumn n f + sumn p (fun i => f (n + i)%nat).
Proof.
  induction p as [|p IH]; simpl; [rewrite Nat.add_0_r; ring|]. rewrite Nat.add_succ_r. simpl. rewrite IH. ring.
Qed.
Lemma sumn_block N m f : sumn (N * m) f = sumn N (fun i => sumn m (fun k => f (i * m + k)%nat)).
Proof.
  induction N as [|N IH]; simpl; auto. rewrite (Nat.add_comm m), sumn_add, IH. reflexivity.
Qed.
Lemma sumn_single N i f : (i < N)%nat -> (forall j, (j < N)%nat -> j <> i -> f j = 0) -> sumn N f = f i.
Proof.
  induction N as [|N IH]; simpl; intros Hi Hz; [lia|]. destruct (Nat.eq_dec i N) as [->|Hne].
  - rewrite sumn_zero; [ring|]. intros j Hj. apply Hz; lia.
  - rewrite IH, (Hz N); try lia; [ring|]. intros; apply Hz; lia.
Qed.
Lemma sumn_scal n c f : sumn n (fun i => c * f i) = c * sumn n f.
Proof. induction n as [|n IH]; simpl; [ring|]. rewrite IH. ring. Qed.

Lemma div_block i m k : (k < m)%nat -> ((i * m + k) / m = i)%nat.
Proof. intros. rewrite Nat.div_add_l by lia. rewrite Nat.div_small; lia. Qed.
Lemma mod_block i m k : (k < m)%nat -> ((i * m + k) mod m = k)%nat.
Proof. intros. rewrite Nat.add_comm, Nat.mod_add by lia. apply Nat.mod_small; auto. Qed.

Section Obj.
Variable minf : R.
Variable argsort : list R -> list nat.
Variable o : hvobj.
Notation m := (n_obj o).
Notation n := (n_var o).

Lemma sum_block_row N i f J v : (i < N)%nat -> (v < n)%nat ->
  sumn (N * m) (fun r => f r * block_diag o J r (i * n + v)%nat) = sumn m (fun k => f (i * m + k)%nat * J i k v).
Proof.
  intros Hi Hv. rewrite sumn_block. rewrite (sumn_single N i); auto.
  - apply sumn_ext. intros k Hk. unfold block_diag. rewrite !div_block, !mod_block by auto. rewrite Nat.eqb_refl. auto.
  - intros j Hj Hne. apply sumn_zero. intros k Hk. unfold block_diag. rewrite !div_block by auto.
    destruct (Nat.eqb_spec j i); [lia|]. ring.
Qed.

Lemma gradient_chain X Y YdX dX g : compute_gradient minf argsort o X Y YdX = Ok (dX, g) ->
  compute_HVdY minf argsort m (obj_points o X Y) (oref o) = Ok g /\
  forall i v, (i < length X)%nat -> (v < n)%nat ->
    dX (i * n + v)%nat = sumn m (fun k => coord g i k * obj_jac o X YdX i k v).
Proof.
  unfold compute_gradient. destruct (compute_HVdY _ _ _ _ _) as [g'|e]; simpl; [|discriminate].
  intros E. injection E as <- ->. split; auto. intros i v Hi Hv. rewrite sum_block_row by auto.
  apply sumn_ext. intros k Hk. unfold flat. rewrite div_block, mod_block by auto. reflexivity.
Qed.

Lemma hessian_symmetric X Y YdX dX dX2 : compute_hessian minf argsort o X Y YdX = Ok (dX, dX2) ->
  forall a b, dX2 a b = dX2 b a.
Proof.
  unfold compute_hessian. destruct (compute_gradient _ _ _ _ _ _) as [[d g]|e]; simpl; [|discriminate].
  destruct (compute_HVdY2 _ _ _ _ _) as [H|e]; simpl; [|discriminate].
  intros E. injection E as <- <-. intros a b. simpl. field.
Qed.

Definition raw_block (Jac : nat -> mat) (Hes : nat -> nat -> mat) (g : list vec) (H : list (list (list (list R)))) (i v j w : nat) : R :=
  sumn m (fun k => sumn m (fun l => Jac i k v * nth k (nth i (nth l (nth j H []) []) []) 0 * Jac j l w))
  + (if Nat.eqb i j then sumn m (fun k => coord g i k * Hes i k v w) else 0).

Lemma hessian_blocks X Y YdX dX dX2 : compute_hessian minf argsort o X Y YdX = Ok (dX, dX2) ->
  exists g H, compute_gradient minf argsort o X Y YdX = Ok (dX, g) /\
    compute_HVdY2 minf argsort m (obj_points o X Y) (oref o) = Ok H /\
    forall i v j w, (i < length X)%nat -> (v < n)%nat -> (j < length X)%nat -> (w < n)%nat ->
      dX2 (i * n + v)%nat (j * n + w)%nat =
      (raw_block (obj_jac o X YdX) (fun i => hessian o (nth i X [])) g H i v j w
       + raw_block (obj_jac o X YdX) (fun i => hessian o (nth i X [])) g H j w i v) / 2.
Proof.
  unfold compute_hessian. destruct (compute_gradient _ _ _ _ _ _) as [[d g]|e] eqn:Eg; simpl; [|discriminate].
  destruct (compute_HVdY2 _ _ _ _ _) as [H|e] eqn:EH; simpl; [|discriminate].
  intros E. injection E as <- <-. exists g, H. split; auto. split; auto.
  assert (Hraw : forall i v j w, (i < length X)%nat -> (v < n)%nat -> (j < length X)%nat -> (w < n)%nat ->
    sumn (length X * m) (fun r => sumn (length X * m) (fun s =>
       block_diag o (obj_jac o X YdX) r (i * n + v)%nat * flat2 o H r s * block_diag o (obj_jac o X YdX) s (j * n + w)%nat))
    + sumn (length X * m) (fun r => flat o g r * block_tensor o (fun i => hessian o (nth i X [])) r (i * n + v)%nat (j * n + w)%nat)
    = raw_block (obj_jac o X YdX) (fun i => hessian o (nth i X [])) g H i v j w).
  { intros i v j w Hi Hv Hj Hw. unfold raw_block. f_equal.
    - rewrite (sumn_ext _ _ (fun r => sumn m (fun l => flat2 o H r (j * m + l)%nat * obj_jac o X YdX j l w) * block_diag o (obj_jac o X YdX) r (i * n + v)%nat)).
      + rewrite sum_block_row by auto. apply sumn_ext. intros k Hk. rewrite Rmult_comm, <- sumn_scal. apply sumn_ext. intros l Hl.
        unfold flat2. rewrite !div_block, !mod_block by auto. ring.
      + intros r Hr. rewrite <- (sum_block_row (length X) j (fun s => flat2 o H r s) (obj_jac o X YdX) w Hj Hw).
        rewrite Rmult_comm, <- sumn_scal. apply sumn_ext. intros s Hs. ring.
    - rewrite sumn_block. destruct (Nat.eqb_spec i j) as [->|Hne].
      + rewrite (sumn_single _ j); auto.
        * apply sumn_ext. intros k Hk. unfold flat, block_tensor. rewrite !div_block, !mod_block by auto. rewrite !Nat.eqb_refl. reflexivity.
        * intros a Ha Hna. apply sumn_zero. intros k Hk. unfold block_tensor. rewrite !div_block by auto.
          destruct (Nat.eqb_spec a j); [lia|]. simpl. ring.
      + apply sumn_zero. intros a Ha. apply sumn_zero. intros k Hk. unfold block_tensor. rewrite !div_block by auto.
        destruct (Nat.eqb_spec a i), (Nat.eqb_spec a j); subst; simpl; try congruence; ring. }
  intros i v j w Hi Hv Hj Hw. rewrite !Hraw by auto. reflexivity.
Qed.
End Obj.
