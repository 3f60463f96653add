(** Property theorems: the start of the Newton methods without an initial population. *)
From Coq Require Import List Arith Bool Reals ZArith Lra Lia.
From Flocq Require Import Core IEEE754.BinarySingleNaN.
From Verif Require Import Num Exn StateModel NewtonModel RefModel MMDModel ShiftModel IterModel IterSpec HvnModel MnModel StartModel StartSpec StartProof DblModel DblSpec StartDbl PropsDblHV IterEx HvnEx MnEx.
Import ListNotations.
Open Scope R_scope.

(** * C174: the drawn population *)
Theorem C174_in_box : forall rand n d xl xu, uniform n d (rand n d) -> length xl = d -> length xu = d ->
  (forall k, (k < d)%nat -> nth k xl 0 <= nth k xu 0) ->
  exists X, sampled rand (Some n) d (map Real xl) (map Real xu) = Ok X /\ length X = n /\
    forall x, In x X -> in_box xl xu x /\ forall k, (k < d)%nat -> nth k xl 0 < nth k xu 0 -> nth k x 0 < nth k xu 0.
Proof.
  intros rand n d xl xu U Ll Lu Hb. exists (map (sample_row xl xu) (rand n d)). split. apply sampled_ok.
  split. rewrite map_length. apply U. intros x Hx. apply (sampled_box rand n); auto.
Qed.
Print Assumptions C174_in_box.
(** the points are the images of the random numbers under the affine map of the unit cube onto the box,
    and every point of the (half-open) box can be drawn *)
Theorem C174_affine : forall rand n d xl xu X i k, uniform n d (rand n d) -> length xl = d -> length xu = d ->
  sampled rand (Some n) d (map Real xl) (map Real xu) = Ok X -> (i < n)%nat -> (k < d)%nat ->
  nth k (nth i X []) 0 = nth k xl 0 + nth k (nth i (rand n d) []) 0 * (nth k xu 0 - nth k xl 0).
Proof.
  intros rand n d xl xu X i k [U1 U2] Ll Lu E Hi Hk. rewrite sampled_ok in E. injection E as <-.
  rewrite (nth_indep _ [] (sample_row xl xu [])) by (rewrite map_length; lia). rewrite map_nth.
  destruct (U2 (nth i (rand n d) [])) as [L _]. apply nth_In; lia. apply sample_row_nth; try congruence; lia.
Qed.
Print Assumptions C174_affine.
Theorem C174_every_point : forall d xl xu x, length xl = d -> length xu = d -> length x = d ->
  (forall k, (k < d)%nat -> nth k xl 0 <= nth k x 0 < nth k xu 0) ->
  exists U, uniform 1 d U /\ sampled (fun _ _ => U) (Some 1%nat) d (map Real xl) (map Real xu) = Ok [x].
Proof.
  intros d xl xu x Ll Lu Lx Hb. destruct (sample_onto xl xu x) as (u & L & H & E); try congruence. intros k Hk. apply Hb. congruence.
  exists [u]. split. split; auto. intros u' [<-|[]]. split. congruence. intros k Hk. apply H. congruence.
  rewrite sampled_ok. cbn. rewrite E. auto.
Qed.
Print Assumptions C174_every_point.
(** without a size, or with an infinite bound, the assertions fail; nothing else does *)
Theorem C174_assertions : forall rand N d xl xu, (N = None \/ exists s, In (Infinite s) xl \/ In (Infinite s) xu) <-> sampled rand N d xl xu = Exn AssertionError.
Proof. intros. symmetry. apply sampled_error. Qed.
Print Assumptions C174_assertions.
Theorem C174_otherwise : forall rand N d xl xu e, sampled rand N d xl xu = Exn e -> e = AssertionError.
Proof. intros rand [n|] d xl xu e; cbn; [destruct (real_bounds xl), (real_bounds xu)|]; congruence. Qed.
Print Assumptions C174_otherwise.
(** from then on the methods behave as if the drawn points had been given *)
Theorem C174_hvn : forall V rand n, let d := c_nvar (v_prob V) in uniform n d (rand n d) -> length (v_xl V) = d -> length (v_xu V) = d ->
  (forall k, (k < d)%nat -> nth k (v_xl V) 0 <= nth k (v_xu V) 0) ->
  exists X, sampled rand (Some n) d (map Real (v_xl V)) (map Real (v_xu V)) = Ok X /\ hvn_start V rand (Some n) = hvn_init V X.
Proof. intros V rand n d U Ll Lu Hb. eexists. split. apply sampled_ok. apply hvn_same; auto. Qed.
Print Assumptions C174_hvn.
Theorem C174_dpn : forall K rs rand n, let d := c_nvar (k_prob K) in uniform n d (rand n d) -> length (k_xl K) = d -> length (k_xu K) = d ->
  (forall k, (k < d)%nat -> nth k (k_xl K) 0 <= nth k (k_xu K) 0) ->
  exists X, sampled rand (Some n) d (map Real (k_xl K)) (map Real (k_xu K)) = Ok X /\ dpn_start K rs rand (Some n) = dpn_init K rs X.
Proof. intros K rs rand n d U Ll Lu Hb. eexists. split. apply sampled_ok. apply dpn_same; auto. Qed.
Print Assumptions C174_dpn.
Theorem C174_mmd : forall M rs rand n, let K := n_base M in let d := c_nvar (k_prob K) in uniform n d (rand n d) -> length (k_xl K) = d -> length (k_xu K) = d ->
  (forall k, (k < d)%nat -> nth k (k_xl K) 0 <= nth k (k_xu K) 0) ->
  exists X, sampled rand (Some n) d (map Real (k_xl K)) (map Real (k_xu K)) = Ok X /\ mn_start M rs rand (Some n) = mn_init M rs X.
Proof. intros M rs rand n K d U Ll Lu Hb. eexists. split. apply sampled_ok. apply mn_same; auto. Qed.
Print Assumptions C174_mmd.
(** the numbers of constraints do not depend on the trial point when the functions answer alike everywhere *)
Theorem C174_counts : forall h g xl xu u, (forall f, h = Some f -> exists a, forall x, f x = a /\ a <> ZeroDim) -> (forall f, g = Some f -> exists a, forall x, f x = a /\ a <> ZeroDim) ->
  exists ne ni, check_constraints h g xl xu u = Ok (ne, ni, match h, g with None, None => false | _, _ => true end) /\
    (h = None -> ne = 0%nat) /\ (g = None -> ni = 0%nat) /\
    (forall f x m, h = Some f -> f x = Vector m -> ne = m) /\ (forall f x m, g = Some f -> f x = Vector m -> ni = m) /\
    (forall f x, h = Some f -> f x = Number -> ne = 1%nat) /\ (forall f x, g = Some f -> f x = Number -> ni = 1%nat).
Proof.
  assert (C : forall f x, (forall f', f = Some f' -> exists a, forall x, f' x = a /\ a <> ZeroDim) ->
    exists m, count_opt f x = Ok m /\ (f = None -> m = 0%nat) /\ (forall f' y k, f = Some f' -> f' y = Vector k -> m = k) /\ (forall f' y, f = Some f' -> f' y = Number -> m = 1%nat)).
  { intros [f|] x H; cbn.
    - destruct (H f eq_refl) as [a Ha]. destruct (Ha x) as [E Z]. rewrite E. destruct a as [|m|]; [exists 1%nat|exists m|congruence]; (split; [reflexivity|]); (split; [discriminate|]);
        (split; intros f' y; [intros k|]; intros Hf Hy; injection Hf as <-; rewrite (proj1 (Ha y)) in Hy; congruence).
    - exists 0%nat. repeat split; auto; discriminate. }
  intros h g xl xu u Hh Hg. unfold check_constraints. destruct (C h (sample_row xl xu u) Hh) as (ne & E1 & A1 & A2 & A3). destruct (C g (sample_row xl xu u) Hg) as (ni & E2 & B1 & B2 & B3).
  rewrite E1, E2. cbn [bind]. exists ne, ni. split; [reflexivity|]. split; [exact A1|]. split; [exact B1|]. split; [exact A2|]. split; [exact B2|]. split; [exact A3|exact B3].
Qed.
Print Assumptions C174_counts.
(** a function that returns an array without dimensions makes the constructor fail *)
Theorem C174_scalar_array : forall h g xl xu u,
  (forall x, h x = ZeroDim) -> check_constraints (Some h) g xl xu u = Exn TypeError /\
    ((forall f x, g = Some f -> f x <> ZeroDim) -> check_constraints g (Some h) xl xu u = Exn TypeError).
Proof.
  intros h g xl xu u H. unfold check_constraints. cbn [count_opt]. rewrite H. split; [reflexivity|]. intros Hg.
  destruct g as [f|]; [|reflexivity]. cbn [count_opt]. specialize (Hg f (sample_row xl xu u) eq_refl). destruct (f (sample_row xl xu u)); try reflexivity.
Qed.
Print Assumptions C174_scalar_array.
Example C174_scalar_array_example : check_constraints (Some (fun _ => Vector 2)) (Some (fun _ => ZeroDim)) [0] [1] [0.5] = Exn TypeError.
Proof. reflexivity. Qed.
(** three points in the box [-1, 3] x [2, 2]; an equality constraint with two values *)
Definition draw3 : list (list R) := [[0; 0]; [0.5; 0.25]; [0.75; 0.9]].
Lemma uniform3 : uniform 3 2 draw3.
Proof.
  split; auto. intros u [<-|[<-|[<-|[]]]]; (split; [reflexivity|]); intros [|[|k]] Hk; try lia; cbn; lra.
Qed.
Example C174_example : uniform 3 2 draw3 /\ exists X, sampled (fun _ _ => draw3) (Some 3%nat) 2 (map Real [-1; 2]) (map Real [3; 2]) = Ok X /\ nth 0 (nth 1 X []) 0 = 1.
Proof. split. apply uniform3. eexists. split. reflexivity. cbn. change (0.5 * (3 - -1) + -1 = 1). lra. Qed.
Example C174_assertions_example : sampled (fun _ _ => draw3) (Some 3%nat) 2 [Real 0; Infinite true] (map Real [3; 2]) = Exn AssertionError.
Proof. reflexivity. Qed.
Example C174_every_point_example : forall k, (k < 2)%nat -> nth k [-1; 2] 0 <= nth k [0.5; 2] 0 < nth k [3; 4] 0.
Proof. intros [|[|k]] Hk; try lia; cbn; lra. Qed.
(** two points of the problem of [HvnEx] on the line, one of [IterEx], one of [MnEx] *)
Example C174_hvn_example : let d := c_nvar (v_prob (VE false)) in uniform 3 d draw3 /\ length (v_xl (VE false)) = d /\ length (v_xu (VE false)) = d /\
  forall k, (k < d)%nat -> nth k (v_xl (VE false)) 0 <= nth k (v_xu (VE false)) 0.
Proof. cbn zeta. split. apply uniform3. split. reflexivity. split. reflexivity. intros [|[|k]] Hk; cbn in *; try lia; lra. Qed.
Example C174_dpn_example : let d := c_nvar (k_prob (K1 IGD 0 1)) in uniform 1 d [[0.5]] /\ length (k_xl (K1 IGD 0 1)) = d /\ length (k_xu (K1 IGD 0 1)) = d /\
  forall k, (k < d)%nat -> nth k (k_xl (K1 IGD 0 1)) 0 <= nth k (k_xu (K1 IGD 0 1)) 0.
Proof. cbn zeta. split. split; auto. intros u [<-|[]]. split. reflexivity. intros [|k] Hk; cbn in *; try lia; lra. split. reflexivity. split. reflexivity. intros [|k] Hk; cbn in *; try lia; lra. Qed.
Example C174_mmd_example : let K := n_base (M2 1) in let d := c_nvar (k_prob K) in uniform 3 d draw3 /\ length (k_xl K) = d /\ length (k_xu K) = d /\
  forall k, (k < d)%nat -> nth k (k_xl K) 0 <= nth k (k_xu K) 0.
Proof. cbn zeta. split. apply uniform3. split. reflexivity. split. reflexivity. intros [|[|k]] Hk; cbn in *; try lia; lra. Qed.
Example C174_counts_example : check_constraints (Some (fun _ => Vector 2)) (Some (fun _ => Number)) [0] [1] [0.5] = Ok (2%nat, 1%nat, true).
Proof. reflexivity. Qed.

(** * C175: drawing with doubles *)
Lemma random_dbl k : (0 <= k < 2 ^ 53)%Z -> random_double (dbl k (-53)).
Proof. intros H. destruct (dbl_val k (-53)) as [A B]; try lia. split; auto. exists k. auto. Qed.
Theorem C175_in_box : forall xl xu u : list double, length xl = length u -> length xu = length u ->
  (forall k, (k < length u)%nat -> is_finite (nth k xl d0) = true /\ is_finite (nth k xu d0) = true /\ B2R (nth k xl d0) <= B2R (nth k xu d0) /\
     is_finite (Bminus mode_NE (nth k xu d0) (nth k xl d0)) = true /\ random_double (nth k u d0)) ->
  length (sample_row xl xu u) = length u /\
  forall k, (k < length u)%nat -> let x := nth k (sample_row xl xu u) d0 in is_finite x = true /\ B2R (nth k xl d0) <= B2R x <= B2R (nth k xu d0).
Proof.
  intros xl xu u. revert xl xu. induction u as [|a u IH]; intros [|l xl] [|h xu] H1 H2 H; cbn in H1, H2; try discriminate.
  - split; auto. cbn. intros; lia.
  - destruct (IH xl xu) as [I1 I2]. lia. lia. intros k Hk. apply (H (S k)). cbn. lia.
    split. unfold sample_row in *. cbn [zip_with length]. auto.
    intros [|k] Hk.
    + destruct (H 0%nat) as (F1 & F2 & F3 & F4 & F5). cbn. lia. exact (sample_dbl l h a F1 F2 F5 F3 F4).
    + apply I2. cbn in Hk. lia.
Qed.
Print Assumptions C175_in_box.
(** the upper bound, excluded for real numbers, can be hit *)
Theorem C175_half_open_refuted : exists xl xu u : double, is_finite xl = true /\ is_finite xu = true /\ random_double u /\ Bltb xl xu = true /\
  Beqb (nth 0 (sample_row [xl] [xu] [u]) d0) xu = true.
Proof.
  exists (dbl 1 0), (dbl (2 ^ 52 + 1) (-52)), (dbl (2 ^ 53 - 1) (-53)).
  split. vm_compute; reflexivity. split. vm_compute; reflexivity. split.
  - apply random_dbl. lia.
  - split. vm_compute; reflexivity. vm_compute. reflexivity.
Qed.
Print Assumptions C175_half_open_refuted.
(** if the difference of the bounds overflows, no drawn coordinate is finite *)
Theorem C175_wide : forall xl xu u : double, is_finite xl = true -> is_finite u = true -> is_finite (Bminus mode_NE xu xl) = false ->
  exists x, sample_row [xl] [xu] [u] = [x] /\ is_finite x = false.
Proof.
  intros xl xu u Hl Hu Hd. exists (nadd (nmul u (nsub xu xl)) xl). split; [reflexivity|].
  change (is_finite (Bplus mode_NE (Bmult mode_NE u (Bminus mode_NE xu xl)) xl) = false).
  destruct (Bminus mode_NE xu xl) as [s|s| |s m e B]; try discriminate; destruct u as [su|su| |su mu eu Bu]; try discriminate; destruct xl as [sl|sl| |sl ml el Bl]; try discriminate; reflexivity.
Qed.
Print Assumptions C175_wide.
(** finite bounds so far apart that their difference overflows pass the assertions, and no point is drawn *)
Theorem C175_wide_refuted : exists xl xu u v : double, is_finite xl = true /\ is_finite xu = true /\ Bltb xl xu = true /\ random_double u /\ random_double v /\
  sample_row [xl; xl] [xu; xu] [u; v] = [B754_nan; B754_infinity false].
Proof.
  exists (dbl (- 2 ^ 53 + 1) 971), (dbl (2 ^ 53 - 1) 971), (dbl 0 (-53)), (dbl (2 ^ 52) (-53)).
  split. vm_compute; reflexivity. split. vm_compute; reflexivity. split. vm_compute; reflexivity. split; [|split].
  - apply random_dbl. lia.
  - apply random_dbl. lia.
  - vm_compute. reflexivity.
Qed.
Print Assumptions C175_wide_refuted.
(** the box [0.1, 0.3], whose bounds and width are rounded *)
Example C175_example : let xl := dbl 3602879701896397 (-55) in let xu := dbl 5404319552844595 (-54) in let u := dbl (2 ^ 53 - 1) (-53) in
  is_finite xl = true /\ is_finite xu = true /\ Bltb xl xu = true /\ is_finite (Bminus mode_NE xu xl) = true /\ random_double u.
Proof.
  cbn zeta. split. vm_compute; reflexivity. split. vm_compute; reflexivity. split. vm_compute; reflexivity. split. vm_compute; reflexivity.
  apply random_dbl. lia.
Qed.
