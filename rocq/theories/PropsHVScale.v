(** C04: change of units and origin of the objectives for all inputs, including those on
    which the computed value is not the volume; reordering the objectives is different. *)
From Coq Require Import List Arith Lia Bool ZArith Reals Lra Permutation.
From Verif Require Import Num Exn HVModel NDSSpec HVSpec HVTop HVHom HVExtra HVScale PropsHV.
Import ListNotations.
Open Scope R_scope.

(** Scaling the objectives by positive factors and translating points and reference point
    multiplies the returned value by the product of the factors, and if the computation
    fails it fails in the same way. *)
Theorem C04_affine : forall minf minf' argsort s t F F' ref ref',
  order_determined argsort -> rows_ok F ref -> (forall k, (k < length ref)%nat -> 0 < s k) ->
  affine_image s t ref ref' -> Forall2 (affine_image s t) F F' ->
  strictly_above minf F ref -> strictly_above minf' F' ref' ->
  (forall v, hypervolume minf argsort F ref = Ok v ->
     hypervolume minf' argsort F' ref' = Ok (fold_right Rmult 1 (map s (seq 0 (length ref))) * v)) /\
  (forall e, hypervolume minf argsort F ref = Exn e -> hypervolume minf' argsort F' ref' = Exn e).
Proof.
  intros minf minf' a s t F F' ref ref' Ha HF Hs Hr HFF Hm Hm'.
  rewrite (hypervolume_affine minf minf' a s t F F' ref ref' Ha HF Hs Hr HFF Hm Hm').
  split; intros x ->; reflexivity.
Qed.
Print Assumptions C04_affine.

(** the same for the improvement *)
Theorem C04_improvement_affine : forall minf minf' argsort s t x x' F F' ref ref' v,
  order_determined argsort -> rows_ok (x :: F) ref -> (forall k, (k < length ref)%nat -> 0 < s k) ->
  affine_image s t ref ref' -> affine_image s t x x' -> Forall2 (affine_image s t) F F' ->
  strictly_above minf (x :: F) ref -> strictly_above minf' (x' :: F') ref' ->
  hypervolume_improvement minf argsort x F ref = Ok v ->
  hypervolume_improvement minf' argsort x' F' ref' = Ok (fold_right Rmult 1 (map s (seq 0 (length ref))) * v).
Proof.
  intros minf minf' a s t x x' F F' ref ref' v Ha HF Hs Hr Hx HFF Hm Hm'. unfold hypervolume_improvement.
  rewrite (hypervolume_affine minf minf' a s t (x :: F) (x' :: F') ref ref') by auto.
  rewrite (hypervolume_affine minf minf' a s t F F' ref ref'); auto.
  - destruct (hypervolume minf a (x :: F) ref) as [u|]; cbn [rmap bind]; [|discriminate].
    destruct (hypervolume minf a F ref) as [w|]; cbn [rmap bind]; [|discriminate].
    intros E. injection E as <-. f_equal. unfold nsub; simpl. ring.
  - intros p Hp. apply HF; simpl; auto.
  - intros p k Hp. apply Hm; simpl; auto.
  - intros p k Hp. apply Hm'; simpl; auto.
Qed.
Print Assumptions C04_improvement_affine.

(** Reversing the order of the objectives changes the returned value, already for mutually
    non-dominated points strictly inside the reference box. *)
Theorem C04_objective_permutation_refuted :
  exists minf argsort sigma F F' ref v w, argsort_stable argsort /\ order_determined argsort /\
    rows_ok F ref /\ strictly_above minf F ref /\ strictly_above minf F' ref /\ mutually_nondominated F /\
    (forall p k, In p F -> (k < length ref)%nat -> nth k p 0 < nth k ref 0) /\
    Permutation (map sigma (seq 0 (length ref))) (seq 0 (length ref)) /\
    coord_perm sigma ref ref /\ Forall2 (coord_perm sigma) F F' /\
    hypervolume minf argsort F ref = Ok v /\ hypervolume minf argsort F' ref = Ok w /\ v <> w.
Proof.
  exists minf4, stable_argsort, (fun k => (4 - k)%nat), front5, [[0;1;0;1;0]; [0;1;1;0;0]; [1;0;0;1;0]], ref5, 14, 16.
  split; [exact stable_argsort_stable|]. split; [exact stable_order_determined|].
  split; [apply rows_ok_dec; reflexivity|].
  split; [|split; [|split; [|split; [|split; [|split; [|split; [|split; [|split]]]]]]]].
  - intros p k Hp _ Hk. unfold front5, ref5, minf4 in *. simpl in Hk.
    destruct Hp as [<-|[<-|[<-|[]]]]; destruct k as [|[|[|[|[|k]]]]]; simpl; try lra; lia.
  - intros p k Hp _ Hk. unfold ref5, minf4 in *. simpl in Hk.
    destruct Hp as [<-|[<-|[<-|[]]]]; destruct k as [|[|[|[|[|k]]]]]; simpl; try lra; lia.
  - intros i j Hi Hj Hne [_ Hw]. simpl in Hi, Hj.
    pose proof (Hw 0%nat) as H0. pose proof (Hw 1%nat) as H1. pose proof (Hw 2%nat) as H2.
    pose proof (Hw 3%nat) as H3. pose proof (Hw 4%nat) as H4. clear Hw.
    destruct i as [|[|[|i]]]; destruct j as [|[|[|j]]]; try lia; simpl in *;
      specialize (H0 ltac:(lia)); specialize (H1 ltac:(lia)); specialize (H2 ltac:(lia));
      specialize (H3 ltac:(lia)); specialize (H4 ltac:(lia)); lra.
  - intros p k Hp Hk. unfold front5, ref5 in *. simpl in Hk.
    destruct Hp as [<-|[<-|[<-|[]]]]; destruct k as [|[|[|[|[|k]]]]]; simpl; try lra; lia.
  - simpl. apply (Permutation_sym (Permutation_rev [0;1;2;3;4]%nat)).
  - split; [reflexivity|]. intros k Hk. unfold ref5 in *. simpl in Hk.
    destruct k as [|[|[|[|[|k]]]]]; simpl; try lra; lia.
  - unfold front5. repeat constructor; intros k Hk; simpl in Hk;
    destruct k as [|[|[|[|[|k]]]]]; simpl; try lra; lia.
  - exact run5.
  - change ref5 with (map IZR [2;2;2;2;2]%Z). change minf4 with (IZR (-100)).
    change (hypervolume (IZR (-100)) stable_argsort
      (map (map IZR) [[0;1;0;1;0]; [0;1;1;0;0]; [1;0;0;1;0]]%Z) (map IZR [2;2;2;2;2]%Z) = Ok 16).
    rewrite hypervolume_run. vm_compute (hypervolume _ _ _ _). reflexivity.
  - lra.
Qed.
Print Assumptions C04_objective_permutation_refuted.

(** the hypotheses of C04_affine hold for the front of five objectives on which the
    returned value 14 is not the volume 16 *)
Example C04_affine_meets :
  let s := fun k => match k with O => 2 | _ => 3 end in let t := fun _ : nat => -1 in
  order_determined (stable_argsort (T:=R)) /\ rows_ok front5 ref5 /\ (forall k, (k < length ref5)%nat -> 0 < s k) /\
  affine_image s t ref5 [3;5;5;5;5] /\
  Forall2 (affine_image s t) front5 [[-1;2;-1;2;-1]; [-1;-1;2;2;-1]; [-1;2;-1;-1;2]] /\
  strictly_above (-100) front5 ref5 /\
  strictly_above (-100) [[-1;2;-1;2;-1]; [-1;-1;2;2;-1]; [-1;2;-1;-1;2]] [3;5;5;5;5] /\
  hypervolume minf4 stable_argsort front5 ref5 = Ok 14.
Proof.
  intros s t. split; [exact stable_order_determined|]. split; [apply rows_ok_dec; reflexivity|].
  split; [intros [|k] _; unfold s; lra|].
  split; [|split; [|split; [|split]]].
  - split; [reflexivity|]. intros k Hk. unfold ref5, s, t in *. simpl in Hk.
    destruct k as [|[|[|[|[|k]]]]]; simpl; try lra; lia.
  - unfold front5, s, t. repeat constructor; intros k Hk; simpl in Hk;
    destruct k as [|[|[|[|[|k]]]]]; simpl; try lra; lia.
  - intros p k Hp _ Hk. unfold front5, ref5 in *. simpl in Hk.
    destruct Hp as [<-|[<-|[<-|[]]]]; destruct k as [|[|[|[|[|k]]]]]; simpl; try lra; lia.
  - intros p k Hp _ Hk. simpl in Hk.
    destruct Hp as [<-|[<-|[<-|[]]]]; destruct k as [|[|[|[|[|k]]]]]; simpl; try lra; lia.
  - exact run5.
Qed.
