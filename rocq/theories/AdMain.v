From Coq Require Import List Arith Lia Reals Lra Bool.
From Coquelicot Require Import Coquelicot.
From Verif Require Import Num Exn ListAux HVModel HVSpec HVTheory HVTop HVExtra
  HVDModel HVDSpec HVDTheory HVDProof HVDTop HVHTheory HVHProof HVDFacts HVXModel HVXSpec HVXProof HVChain HVSym HVXTop AdModel AdSpec AdProof.
Import ListNotations.
Open Scope R_scope.

(** What is assumed of autograd: for points in general position inside the box it returns the
    derivatives of the function that computes the hypervolume from a flat vector. *)
Definition regular (minf : R) (F : list (list R)) (ref : list R) : Prop :=
  (2 <= length ref)%nat /\ F <> [] /\ rows_ok F ref /\ general_position F ref /\ inside F ref /\ strictly_above minf F ref.
Definition jacobian_ok (minf : R) (argsort : list R -> list nat) (AJ : (vec -> res R) -> vec -> res (nat -> R)) : Prop :=
  forall F ref g, regular minf F ref -> is_gradient (HVY minf argsort (length ref) ref) (concat F) g ->
    exists g', AJ (HVY minf argsort (length ref) ref) (concat F) = Ok g' /\ forall r, (r < length (concat F))%nat -> g' r = g r.
Definition hessian_ok (minf : R) (argsort : list R -> list nat) (AH : (vec -> res R) -> vec -> res mat) : Prop :=
  forall F ref H, regular minf F ref -> is_hessian (HVY minf argsort (length ref) ref) (concat F) H ->
    exists H', AH (HVY minf argsort (length ref) ref) (concat F) = Ok H' /\ forall r s, (r < length (concat F))%nat -> (s < length (concat F))%nat -> H' r s = H r s.

(** * functions with these properties exist *)
Definition total (f : vec -> res R) (x : vec) : R := match f x with Ok v => v | Exn _ => 0 end.
Definition AJ0 (f : vec -> res R) (x : vec) : res (nat -> R) := Ok (fun r => Derive (fun t => total f (set_at r t x)) (nth r x 0)).
Definition AH0 (f : vec -> res R) (x : vec) : res mat :=
  Ok (fun r s => Derive (fun t => Derive (fun u => total f (set_at r u (set_at s t x))) (nth r (set_at s t x) 0)) (nth s x 0)).
Lemma gradient_Derive f x g r : is_gradient f x g -> (r < length x)%nat -> Derive (fun t => total f (set_at r t x)) (nth r x 0) = g r.
Proof.
  intros Hg Hr. destruct (Hg r Hr) as (h & Hl & Hd). apply is_derive_unique. apply (is_derive_ext_loc h); auto.
  generalize Hl. apply filter_imp. intros t E. cbv beta. unfold total.
  assert (E2 : forall v, v = Ok (h t) -> h t = match v with Ok v => v | Exn _ => 0 end) by (intros v ->; reflexivity). apply E2. exact E.
Qed.
Lemma AJ0_ok minf argsort : jacobian_ok minf argsort AJ0.
Proof. intros F ref g _ Hg. eexists. split; [reflexivity|]. intros r Hr. apply gradient_Derive; auto. Qed.
Lemma AH0_ok minf argsort : hessian_ok minf argsort AH0.
Proof.
  intros F ref H _ HH. eexists. split; [reflexivity|]. intros r s Hr Hs. cbv beta. destruct (HH r s Hr Hs) as (D & Hl & Hd).
  apply is_derive_unique. apply (is_derive_ext_loc D); auto. generalize Hl. apply filter_imp. intros t (g & Hg & <-). symmetry.
  apply gradient_Derive; auto. rewrite set_at_length. auto.
Qed.

(** * the dictionaries *)
Lemma dictionary_ext o X g g' H H' : let N := (length X * n_obj o)%nat in
  (forall r, (r < N)%nat -> g r = g' r) -> (forall r s, (r < N)%nat -> (s < N)%nat -> H r s = H' r s) ->
  (forall c, d_X (dictionary o X g H) c = d_X (dictionary o X g' H') c) /\
  (forall r, (r < N)%nat -> d_Y (dictionary o X g H) r = d_Y (dictionary o X g' H') r) /\
  (forall a b, d_X2 (dictionary o X g H) a b = d_X2 (dictionary o X g' H') a b) /\
  (forall r s, (r < N)%nat -> (s < N)%nat -> d_Y2 (dictionary o X g H) r s = d_Y2 (dictionary o X g' H') r s).
Proof.
  intros N Hg HH. split; [|split; [|split]].
  - intros c. cbn. apply sumn_ext. intros r Hr. rewrite Hg by auto. reflexivity.
  - intros r Hr. cbn. rewrite Hg by auto. reflexivity.
  - intros a b. cbn. fold N.
    assert (E : forall a b, sumn N (fun r => sumn N (fun s => block_diag o (fun i => jac o (nth i X [])) r a * H r s * block_diag o (fun i => jac o (nth i X [])) s b))
      + sumn N (fun r => g r * block_tensor o (fun i => hessian o (nth i X [])) r a b)
      = sumn N (fun r => sumn N (fun s => block_diag o (fun i => jac o (nth i X [])) r a * H' r s * block_diag o (fun i => jac o (nth i X [])) s b))
      + sumn N (fun r => g' r * block_tensor o (fun i => hessian o (nth i X [])) r a b)).
    { intros a' b'. f_equal.
      - apply sumn_ext. intros r Hr. apply sumn_ext. intros s Hs. rewrite HH by auto. reflexivity.
      - apply sumn_ext. intros r Hr. rewrite Hg by auto. reflexivity. }
    rewrite !E. reflexivity.
  - intros r s Hr Hs. cbn. apply HH; auto.
Qed.

Definition block_raw (o : hvobj) (X : list vec) (g : nat -> R) (H : mat) (i v j w : nat) : R :=
  sumn (n_obj o) (fun k => sumn (n_obj o) (fun l => jac o (nth i X []) k v * H (i * n_obj o + k)%nat (j * n_obj o + l)%nat * jac o (nth j X []) l w))
  + (if Nat.eqb i j then sumn (n_obj o) (fun k => g (i * n_obj o + k)%nat * hessian o (nth i X []) k v w) else 0).
Lemma dictionary_blocks o X g H : let m := n_obj o in let n := n_var o in
  (forall i v, (i < length X)%nat -> (v < n)%nat -> d_X (dictionary o X g H) (i * n + v)%nat = sumn m (fun k => g (i * m + k)%nat * jac o (nth i X []) k v)) /\
  (forall i v j w, (i < length X)%nat -> (v < n)%nat -> (j < length X)%nat -> (w < n)%nat ->
    d_X2 (dictionary o X g H) (i * n + v)%nat (j * n + w)%nat = (block_raw o X g H i v j w + block_raw o X g H j w i v) / 2).
Proof.
  intros m n. set (J := fun i => jac o (nth i X [])).
  assert (Hraw : forall i v j w, (i < length X)%nat -> (v < n)%nat -> (j < length X)%nat -> (w < n)%nat ->
    sumn (length X * m) (fun r => sumn (length X * m) (fun s => block_diag o J r (i * n + v)%nat * H r s * block_diag o J s (j * n + w)%nat))
    + sumn (length X * m) (fun r => g r * block_tensor o (fun i => hessian o (nth i X [])) r (i * n + v)%nat (j * n + w)%nat)
    = block_raw o X g H i v j w).
  { intros i v j w Hi Hv Hj Hw. unfold block_raw. fold m. f_equal.
    - rewrite (sumn_ext _ _ (fun r => sumn m (fun l => H r (j * m + l)%nat * J j l w) * block_diag o J r (i * n + v)%nat)).
      + unfold m, n in *. rewrite sum_block_row by auto. apply sumn_ext. intros k Hk. rewrite Rmult_comm, <- sumn_scal. apply sumn_ext. intros l Hl. unfold J. ring.
      + intros r Hr. unfold m, n in *. rewrite <- (sum_block_row o (length X) j (fun s => H r s) J w Hj Hw).
        rewrite Rmult_comm, <- sumn_scal. apply sumn_ext. intros s Hs. ring.
    - rewrite sumn_block. destruct (Nat.eqb_spec i j) as [->|Hne].
      + rewrite (sumn_single _ j); auto.
        * apply sumn_ext. intros k Hk. unfold block_tensor. fold m n. rewrite !div_block, !mod_block by auto. rewrite !Nat.eqb_refl. reflexivity.
        * intros a Ha Hna. apply sumn_zero. intros k Hk. unfold block_tensor. fold m n. rewrite !div_block by auto.
          destruct (Nat.eqb_spec a j); [lia|]. simpl. ring.
      + apply sumn_zero. intros a Ha. apply sumn_zero. intros k Hk. unfold block_tensor. fold m n. rewrite !div_block by auto.
        destruct (Nat.eqb_spec a i), (Nat.eqb_spec a j); subst; simpl; try congruence; ring. }
  split.
  - intros i v Hi Hv. cbn. fold m J. unfold m, n in *. rewrite sum_block_row by auto. reflexivity.
  - intros i v j w Hi Hv Hj Hw. cbn. fold m J. rewrite !Hraw by auto. reflexivity.
Qed.

(** * The object *)
Definition current (s : adobj) : Prop :=
  (a_jac s = None \/ a_jac s = Some (oref (a_obj s))) /\ (a_hes s = None \/ a_hes s = Some (oref (a_obj s))).
Section Obj.
Variable minf : R.
Variable argsort : list R -> list nat.
Hypothesis Hargsort : argsort_ok argsort.
Variable AJ : (vec -> res R) -> vec -> res (nat -> R).
Variable AH : (vec -> res R) -> vec -> res mat.
Hypothesis HAJ : jacobian_ok minf argsort AJ.
Hypothesis HAH : hessian_ok minf argsort AH.
Variable o : hvobj.
Notation m := (n_obj o).
Notation n := (n_var o).
Variable X : list vec.
Notation Y := (map (func o) X).

Lemma captured ja he rj rh d : length rj = m -> length rh = m -> m = S (S d) ->
  match ja with Some r => r | None => oref o end = rj -> match he with Some r => r | None => oref o end = rh ->
  regular minf Y rj -> regular minf Y rh ->
  exists g H, automatic minf argsort AJ AH (mkAd o ja he) X = Ok (dictionary o X g H, mkAd o (Some rj) (Some rh)) /\
    (forall i k, (i < length X)%nat -> (k < m)%nat -> g (i * m + k)%nat = gradf Y rj i k) /\
    (forall i k j l, (i < length X)%nat -> (k < m)%nat -> (j < length X)%nat -> (l < m)%nat ->
       H (i * m + k)%nat (j * m + l)%nat = hessf Y rh d i k j l).
Proof using All.
  intros Lj Lh Hd Ej Eh Rj Rh.
  assert (Gj : good rj Y) by (destruct Rj as (? & ? & ? & ? & ? & ?); repeat split; auto; apply H2).
  assert (Gh : good rh Y) by (destruct Rh as (? & ? & ? & ? & ? & ?); repeat split; auto; apply H2).
  destruct (HAJ Y rj _ Rj (HVY_gradient minf argsort Hargsort rj Y ltac:(lia) Gj ltac:(apply Rj))) as (g & Eg & Hg).
  destruct (HAH Y rh _ Rh (HVY_hessian minf argsort Hargsort rh Y d ltac:(lia) Gh ltac:(apply Rh))) as (H & EH & HH).
  assert (LC : length (concat Y) = (length X * m)%nat).
  { rewrite (concat_length_rows m). rewrite map_length. auto. intros y Hy. rewrite <- Lj. apply Gj. auto. }
  rewrite LC in Hg, HH.
  exists g, H. split; [|split].
  - unfold automatic. cbn [a_obj a_jac a_hes]. rewrite Ej, Eh. rewrite <- Lj at 1. rewrite Eg. cbn [bind]. rewrite <- Lh at 1. rewrite EH. reflexivity.
  - intros i k Hi Hk. rewrite Hg by nia. rewrite Lj, div_block, mod_block by auto. reflexivity.
  - intros i k j l Hi Hk Hj Hl. rewrite HH by nia. rewrite Lh, !div_block, !mod_block by auto. reflexivity.
Qed.

Hypothesis Hmaps : maps n m (o_func o).
Hypothesis HX : forall x, In x X -> length x = n.
Hypothesis Hlref : length (o_ref o) = m.
Hypothesis Hreg : regular minf Y (oref o).

Lemma length_oref : length (oref o) = m.
Proof using Hlref. unfold oref. destruct (minimization o); auto. unfold vneg. rewrite map_length; auto. Qed.

Lemma automatic_true s : a_obj s = o -> current s -> (forall x, length x = n -> jac_at n m (o_func o) (o_jac o x) x) ->
  (forall x, In x X -> hess_at n m (o_jac o) (o_hess o x) x) ->
  exists a s', automatic minf argsort AJ AH s X = Ok (a, s') /\ a_obj s' = o /\ current s' /\
  forall i v j w, (i < length X)%nat -> (v < n)%nat -> (j < length X)%nat -> (w < n)%nat ->
    is_partial_X (func o) (oref o) X i v (d_X a (i * n + v)%nat) /\
    is_second_X (func o) (oref o) X i v j w (d_X2 a (i * n + v)%nat (j * n + w)%nat).
Proof using All.
  intros Es (Cj & Ch) HJ HHs. destruct s as [o' ja he]. cbn in Es, Cj, Ch. subst o'.
  pose proof length_oref as Hl. assert (Hm2 : (2 <= m)%nat) by (rewrite <- Hl; apply Hreg).
  assert (Ed : exists d, m = S (S d)) by (exists (m - 2)%nat; lia). destruct Ed as (d & Hd).
  destruct (captured ja he (oref o) (oref o) d Hl Hl Hd) as (g & H & E & Hg & HH); auto.
  { destruct Cj as [->| ->]; auto. } { destruct Ch as [->| ->]; auto. }
  exists (dictionary o X g H), (mkAd o (Some (oref o)) (Some (oref o))). split; [exact E|]. split; [reflexivity|]. split; [split; auto|].
  assert (Hgood : good (oref o) Y) by (destruct Hreg as (? & ? & ? & ? & ? & ?); split; auto).
  destruct (dictionary_blocks o X g H) as (B1 & B2).
  intros i v j w Hi Hv Hj Hw. split.
  - rewrite B1 by auto. rewrite (sumn_ext m _ (fun k => gradf Y (oref o) i k * jac o (nth i X []) k v)) by (intros k Hk; rewrite Hg by auto; reflexivity).
    pose proof (grad_X n (func o) (jac o) (oref o)) as GX. rewrite Hl in GX. apply GX; auto. apply wrap_maps; auto. apply wrap_jac. apply HJ. apply HX. apply nth_In; auto.
  - rewrite B2 by auto.
    assert (Hsym : forall a k b l, (a < length X)%nat -> (k < m)%nat -> (b < length X)%nat -> (l < m)%nat ->
       hessf Y (oref o) d a k b l = hessf Y (oref o) d b l a k).
    { intros a k b l Ha Hk Hb Hl'. apply hessf_sym; auto; try (rewrite map_length; auto); lia. }
    pose proof (hess_X n (func o) (jac o) (hessian o) (oref o) ltac:(lia)) as HX2. rewrite Hl in HX2.
    specialize (HX2 (wrap_maps o m Hmaps) d ltac:(lia) X i v j w HX Hgood Hi Hv Hj Hw (fun x Hx => wrap_jac o m x (HJ x Hx))
      (wrap_hess o m _ (HHs _ (nth_In _ _ Hi)))).
    match goal with |- is_second_X _ _ _ _ _ _ _ ?c => match type of HX2 with is_second_X _ _ _ _ _ _ _ ?c' =>
      replace c with c'; [exact HX2|] end end.
    unfold block_raw.
    assert (E1 : sumn m (fun k => sumn m (fun l => jac o (nth i X []) k v * H (i * m + k)%nat (j * m + l)%nat * jac o (nth j X []) l w))
      = sumn m (fun k => sumn m (fun l => hessf Y (oref o) d i k j l * jac o (nth j X []) l w) * jac o (nth i X []) k v)).
    { apply sumn_ext. intros k Hk. rewrite (Rmult_comm _ (jac o (nth i X []) k v)), <- sumn_scal. apply sumn_ext. intros l Hl'. rewrite HH by auto. ring. }
    assert (E2 : sumn m (fun k => sumn m (fun l => jac o (nth j X []) k w * H (j * m + k)%nat (i * m + l)%nat * jac o (nth i X []) l v))
      = sumn m (fun k => sumn m (fun l => hessf Y (oref o) d i k j l * jac o (nth j X []) l w) * jac o (nth i X []) k v)).
    { rewrite sumn_swap. apply sumn_ext. intros k Hk. rewrite (Rmult_comm _ (jac o (nth i X []) k v)), <- sumn_scal. apply sumn_ext. intros l Hl'.
      rewrite HH by auto. rewrite (Hsym j l i k) by auto. ring. }
    rewrite E1, E2. rewrite sumn_plus.
    assert (E3 : (if (i =? j)%nat then sumn m (fun k => g (i * m + k)%nat * hessian o (nth i X []) k v w) else 0) =
      sumn m (fun k => gradf Y (oref o) i k * (if (i =? j)%nat then hessian o (nth i X []) k v w else 0))).
    { destruct (i =? j)%nat.
      - apply sumn_ext. intros k Hk. rewrite Hg by auto. reflexivity.
      - symmetry. apply sumn_zero. intros; ring. }
    assert (E4 : (if (j =? i)%nat then sumn m (fun k => g (j * m + k)%nat * hessian o (nth j X []) k w v) else 0) =
      sumn m (fun k => gradf Y (oref o) i k * (if (i =? j)%nat then hessian o (nth i X []) k v w else 0))).
    { destruct (Nat.eqb_spec j i) as [->|Hne].
      - rewrite Nat.eqb_refl. apply sumn_ext. intros k Hk. rewrite Hg by auto. f_equal.
        apply (wrap_hess o m _ (HHs _ (nth_In _ _ Hi)) k w v); auto.
      - destruct (Nat.eqb_spec i j); [congruence|]. symmetry. apply sumn_zero. intros; ring. }
    rewrite E3, E4.
    match goal with |- ?a + ?b = _ => transitivity ((a + b + (a + b)) / 2); [|reflexivity]; generalize a b; intros; field end.
Qed.

Lemma automatic_agrees s : a_obj s = o -> current s -> (m <= 5)%nat \/ (m = 6%nat /\ argsort_stable argsort) ->
  exists a s' Z b, automatic minf argsort AJ AH s X = Ok (a, s') /\ analytic minf argsort o X = Ok (Z, b) /\
    let N := (length X * m)%nat in
    (forall c, d_X a c = d_X b c) /\ (forall r, (r < N)%nat -> d_Y a r = d_Y b r) /\
    (forall p q, d_X2 a p q = d_X2 b p q) /\ (forall r c, (r < N)%nat -> (c < N)%nat -> d_Y2 a r c = d_Y2 b r c).
Proof using All.
  intros Es (Cj & Ch) Hm5. destruct s as [o' ja he]. cbn in Es, Cj, Ch. subst o'.
  pose proof length_oref as Hl. assert (Hm2 : (2 <= m)%nat) by (rewrite <- Hl; apply Hreg).
  assert (Ed : exists d, m = S (S d)) by (exists (m - 2)%nat; lia). destruct Ed as (d & Hd).
  destruct (captured ja he (oref o) (oref o) d Hl Hl Hd) as (g & H & E & Hg & HH); auto.
  { destruct Cj as [->| ->]; auto. } { destruct Ch as [->| ->]; auto. }
  destruct Hreg as (_ & HYne & Hr & HG & Hin & Hab0). pose proof (above_weak minf (oref o) Y Hab0) as Hab.
  destruct (whole_gradient minf argsort Hargsort Y (oref o) HYne Hr ltac:(lia) Hab (or_intror (or_introl HG)) (fun _ => Hin)) as (g' & Eg' & Hsh & Hg').
  assert (Hm6 : (2 <= length (oref o) <= 5)%nat \/ (length (oref o) = 6%nat /\ argsort_stable argsort)).
  { destruct Hm5 as [Hm5|[Hm5 Hst]]; [left; lia|right; split; [lia|auto]]. }
  destruct (hess_correct minf argsort Hargsort Y (oref o) HYne Hr Hm6 HG Hin Hab) as (H' & EH & _ & _ & HHe).
  rewrite Hl in Eg', EH. assert (HlY : length Y = length X) by apply map_length.
  eexists _, _, _, _. split; [exact E|]. split; [unfold analytic; rewrite Eg'; cbn [bind]; rewrite EH; reflexivity|].
  cbv zeta. apply dictionary_ext.
  - intros r Hr'. destruct (flat_index m _ _ ltac:(lia) Hr') as (i & k & -> & Hi & Hk). rewrite Hg by auto. unfold flat. rewrite div_block, mod_block by auto.
    symmetry. apply (proj2 (Hg' i ltac:(rewrite map_length; auto)) k ltac:(rewrite Hl; auto)). apply (proj1 HG); [rewrite map_length; auto|rewrite Hl; auto].
  - intros r c Hr' Hc'. destruct (flat_index m _ _ ltac:(lia) Hr') as (i & k & -> & Hi & Hk). destruct (flat_index m _ _ ltac:(lia) Hc') as (j & l & -> & Hj & Hl').
    rewrite HH by auto. unfold flat2. rewrite !div_block, !mod_block by auto.
    assert (Hgood : good (oref o) Y) by (split; auto).
    assert (Li : (i < length Y)%nat) by (rewrite map_length; auto). assert (Lj : (j < length Y)%nat) by (rewrite map_length; auto).
    assert (Lk : (k < length (oref o))%nat) by (rewrite Hl; auto). assert (Ll : (l < length (oref o))%nat) by (rewrite Hl; auto).
    assert (Ld : length (oref o) = S (S d)) by (rewrite Hl; auto).
    rewrite (hessf_sym (oref o) d Ld) by auto.
    symmetry. refine (hess_unique Y (oref o) d j l i k _ _ Hr Ld HG Hin Lj Ll Li Lk _ _).
    + apply (HHe j l i k Lj Ll Li Lk).
    + apply hess_true; auto.
Qed.

(** gradient with respect to the objective values as the user's function returns them *)
Definition user (v : vec) : vec := if minimization o then v else vneg v.
Lemma vneg_set r t x : vneg (set_at r t x) = set_at r (- t) (vneg x).
Proof using. revert r. induction x as [|a x IH]; intros [|r]; simpl; auto; f_equal; auto; ring. Qed.
Lemma vneg_involutive x : vneg (vneg x) = x.
Proof using. unfold vneg. rewrite map_map. rewrite <- (map_id x) at 2. apply map_ext. intros; ring. Qed.
Lemma vneg_gradient f x g : is_gradient f (vneg x) g -> is_gradient (fun v => f (vneg v)) x (fun r => -1 * g r).
Proof using.
  intros H r Hr. destruct (H r) as (h & Hl & Hd); [unfold vneg; rewrite map_length; auto|]. rewrite nth_vneg in Hl, Hd.
  exists (fun t => h (- t)). split.
  - assert (C : continuous (fun t : R => - t) (nth r x 0)) by (apply (ex_derive_continuous (fun t : R => - t)); auto_derive; auto).
    specialize (C (fun u => f (set_at r u (vneg x)) = Ok (h u))). replace (-1 * nth r x 0) with (- nth r x 0) in Hl by ring.
    specialize (C Hl). unfold filtermap in C. generalize C. apply filter_imp. intros t E. exact (eq_trans (f_equal f (vneg_set r t x)) E).
  - replace (-1 * nth r x 0) with (- nth r x 0) in Hd by ring. apply (is_derive_comp h (fun t => - t) (nth r x 0) (g r) (-1)); auto. auto_derive; auto.
Qed.
Lemma concat_vneg (Z : list vec) : concat (map vneg Z) = vneg (concat Z).
Proof using. unfold vneg. rewrite concat_map. reflexivity. Qed.
Lemma gradient_ext f x g g' : (forall r, (r < length x)%nat -> g r = g' r) -> is_gradient f x g -> is_gradient f x g'.
Proof using. intros E H r Hr. destruct (H r Hr) as (h & Hl & Hd). exists h. split; auto. rewrite <- E; auto. Qed.
Lemma automatic_gradient s : a_obj s = o -> current s ->
  exists a s', automatic minf argsort AJ AH s X = Ok (a, s') /\
    is_gradient (fun v => HVY minf argsort m (oref o) (user v)) (concat (map (o_func o) X)) (d_Y a).
Proof using All.
  intros Es (Cj & Ch). destruct s as [o' ja he]. cbn in Es, Cj, Ch. subst o'.
  pose proof length_oref as Hl. assert (Hm2 : (2 <= m)%nat) by (rewrite <- Hl; apply Hreg).
  assert (Ed : exists d, m = S (S d)) by (exists (m - 2)%nat; lia). destruct Ed as (d & Hd).
  destruct (captured ja he (oref o) (oref o) d Hl Hl Hd) as (g & H & E & Hg & HH); auto.
  { destruct Cj as [->| ->]; auto. } { destruct Ch as [->| ->]; auto. }
  eexists _, _. split; [exact E|].
  assert (Hgood : good (oref o) Y) by (destruct Hreg as (? & ? & ? & ? & ? & ?); split; auto).
  assert (LC : length (concat Y) = (length X * m)%nat).
  { rewrite (concat_length_rows m). rewrite map_length. auto. intros y Hy. rewrite <- Hl. apply Hgood. auto. }
  assert (G : is_gradient (HVY minf argsort m (oref o)) (concat Y) g).
  { pose proof (HVY_gradient minf argsort Hargsort (oref o) Y ltac:(lia) Hgood ltac:(apply Hreg)) as G. rewrite Hl in G. revert G. apply gradient_ext.
    intros r Hr. rewrite LC in Hr. destruct (flat_index m _ _ ltac:(lia) Hr) as (i & k & -> & Hi & Hk). rewrite Hg, div_block, mod_block by auto. reflexivity. }
  cbn [dictionary d_Y]. unfold user. unfold func in G. destruct (minimization o); auto.
  apply (vneg_gradient (HVY minf argsort m (oref o))). rewrite <- concat_vneg, map_map. exact G.
Qed.
End Obj.
