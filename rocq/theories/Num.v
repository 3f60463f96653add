(** Numbers: the models are written once over a record of operations and
    instantiated at [Z] (to run them) and at [R] (to prove theorems).
    The code of /repo computes with IEEE doubles; rounding is not modelled. *)
From Coq Require Import ZArith Reals Bool Lra List.
Import ListNotations.

Class Num (T : Type) := mkNum {
  nzero : T;
  none_ : T;
  nadd : T -> T -> T;
  nsub : T -> T -> T;
  nmul : T -> T -> T;
  nopp : T -> T;
  nltb : T -> T -> bool
}.

#[global] Arguments nltb {T Num} _ _ : simpl never.
#[global] Arguments nadd {T Num} _ _ : simpl never.
#[global] Arguments nsub {T Num} _ _ : simpl never.
#[global] Arguments nmul {T Num} _ _ : simpl never.
#[global] Arguments nopp {T Num} _ : simpl never.

Definition nleb {T} `{Num T} (x y : T) : bool := negb (nltb y x).
Definition neqb {T} `{Num T} (x y : T) : bool := nleb x y && nleb y x.
Definition nmax {T} `{Num T} (x y : T) : T := if nltb x y then y else x.
Definition nmin {T} `{Num T} (x y : T) : T := if nltb y x then y else x.

#[global] Instance NumZ : Num Z :=
  mkNum Z 0%Z 1%Z Z.add Z.sub Z.mul Z.opp Z.ltb.

Definition Rltb (x y : R) : bool := if Rlt_dec x y then true else false.

#[global] Instance NumR : Num R :=
  mkNum R 0%R 1%R Rplus Rminus Rmult Ropp Rltb.

Open Scope R_scope.

Lemma Rltb_spec x y : reflect (x < y) (Rltb x y).
Proof. unfold Rltb; destruct (Rlt_dec x y); constructor; assumption. Qed.

Lemma nltb_spec (x y : R) : reflect (x < y) (nltb x y).
Proof. exact (Rltb_spec x y). Qed.

Lemma nleb_spec (x y : R) : reflect (x <= y) (nleb x y).
Proof.
  unfold nleb. destruct (nltb_spec y x); constructor; lra.
Qed.

Lemma neqb_spec (x y : R) : reflect (x = y) (neqb x y).
Proof.
  unfold neqb. destruct (nleb_spec x y), (nleb_spec y x); constructor; lra.
Qed.

Lemma nltb_true (x y : R) : nltb x y = true <-> x < y.
Proof. destruct (nltb_spec x y); split; congruence || lra. Qed.
Lemma nltb_false (x y : R) : nltb x y = false <-> y <= x.
Proof. destruct (nltb_spec x y); split; try congruence; lra. Qed.
Lemma nleb_true (x y : R) : nleb x y = true <-> x <= y.
Proof. destruct (nleb_spec x y); split; congruence || lra. Qed.
Lemma nleb_false (x y : R) : nleb x y = false <-> y < x.
Proof. destruct (nleb_spec x y); split; try congruence; lra. Qed.
Lemma neqb_true (x y : R) : neqb x y = true <-> x = y.
Proof. destruct (neqb_spec x y); split; congruence || lra. Qed.

Lemma nmax_Rmax (x y : R) : nmax x y = Rmax x y.
Proof.
  unfold nmax. destruct (nltb_spec x y).
  - rewrite Rmax_right; lra.
  - rewrite Rmax_left; lra.
Qed.
Lemma nmin_Rmin (x y : R) : nmin x y = Rmin x y.
Proof.
  unfold nmin. destruct (nltb_spec y x).
  - rewrite Rmin_right; lra.
  - rewrite Rmin_left; lra.
Qed.

Lemma nadd_R (x y : R) : nadd x y = x + y. Proof. reflexivity. Qed.
Lemma nsub_R (x y : R) : nsub x y = x - y. Proof. reflexivity. Qed.
Lemma nmul_R (x y : R) : nmul x y = x * y. Proof. reflexivity. Qed.
Lemma nopp_R (x : R) : nopp x = - x. Proof. reflexivity. Qed.
Lemma nzero_R : (nzero : R) = 0. Proof. reflexivity. Qed.
Lemma none_R : (none_ : R) = 1. Proof. reflexivity. Qed.

Ltac numR := rewrite ?nadd_R, ?nsub_R, ?nmul_R, ?nopp_R, ?nzero_R, ?none_R in *.
