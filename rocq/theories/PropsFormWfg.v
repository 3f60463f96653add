(** C165: the WFG problems of the code are the published ones. *)
From Coq Require Import List Arith Bool Reals ZArith Lia Lra.
From Verif Require Import WfgSpec WfgModel FormSpec FormWfgSpec WfgFront FormWfg.
Import ListNotations.
Open Scope R_scope.

Theorem C165_wfg : forall number n M k l xu x, (1 <= number <= 9)%nat -> wfg_valid number n M k l ->
  length xu = n -> Forall (fun b => 0 < b) xu -> below xu x ->
  wfg number n M k xu x = Some (WFG n M k number xu x).
Proof. intros number n M k l xu x Hnum HV L P Hx. apply (wfg_published number n M k l); auto. split; auto. Qed.
Print Assumptions C165_wfg.
Example C165_meets : let x := [1; 0; 3; 8; 7/2; 12] in (1 <= 3 <= 9)%nat /\ wfg_valid 3 6 3 4 2 /\ length (default_xu 6) = 6%nat /\ Forall (fun b => 0 < b) (default_xu 6) /\ below (default_xu 6) x.
Proof.
  split; [lia|]. split; [repeat split; try lia; [exists 2%nat; reflexivity|intros _; exists 1%nat; reflexivity]|]. split; [reflexivity|]. split.
  - unfold default_xu. apply Forall_map, Forall_forall. intros i Hi. apply in_seq in Hi. apply Rmult_lt_0_compat; [lra|]. apply lt_0_INR. lia.
  - unfold default_xu, below. cbn [seq map INR]. repeat (apply Forall2_cons; [lra|]). apply Forall2_nil.
Qed.
(** the published formulas at one point: WFG3 with the distance variables at 0.35 of their bounds *)
Example C165_value : WFG 6 3 4 3 [1; 1; 1; 1; 1; 1] [1; 1; 0; 0; 0.35; 0.35] = [1; 2; 0].
Proof.
  assert (F : Floor (0.35 - 0.35 / 1) = 0) by (apply WfgBase.flr_0; lra). assert (E : SLinear 0.35 (0.35 / 1) = 0).
  { unfold SLinear. rewrite F. replace (0.35 / 1 - 0.35) with 0 by lra. rewrite Rabs_R0. lra. }
  unfold WFG, WfgH, WfgX, WfgT, Shape, Reduce, Group, Late, RSum, RNonSep, Ceil2, Sum, Prod, X. cbn [seq map nth Nat.sub Nat.div Nat.divmod fst snd Nat.add Nat.mul Nat.leb Nat.ltb Nat.eqb fold_right andb negb length Nat.modulo INR].
  rewrite !E. rewrite ?Rminus_0_r, ?Rabs_R0. unfold Rmax. 
  repeat match goal with |- context [Rle_dec ?a ?b] => destruct (Rle_dec a b) end; try lra.
  all: repeat (apply (f_equal2 (@cons R)); [lra|]); reflexivity.
Qed.
