(** C156: characters and blanks in the files of B-splines. *)
From Coq Require Import List Arith Lia Bool Ascii String Reals.
From Verif Require Import Exn Ex2Model.
Import ListNotations.
Open Scope nat_scope.
Open Scope list_scope.

Definition blank (c : ascii) : Prop := In (nat_of_ascii c) [9; 10; 11; 12; 13; 28; 29; 30; 31; 32].
Definition blanks (s : text) : Prop := forall c, In c s -> blank c.

(** the blanks are the ten ASCII characters Python's [str.strip] removes *)
Theorem C156_blanks : forall c, is_space c = true <-> blank c.
Proof.
  intros c. unfold is_space, blank. generalize (nat_of_ascii c). intros n.
  rewrite orb_true_iff, !andb_true_iff, !Nat.leb_le. simpl. lia.
Qed.
Print Assumptions C156_blanks.

Lemma blank_space c : blank c -> is_space c = true.
Proof. apply C156_blanks. Qed.
Lemma lstrip_blanks a s : blanks a -> lstrip (a ++ s) = lstrip s.
Proof.
  induction a as [|c a IH]; intros H; auto. simpl. rewrite (blank_space c) by (apply H; simpl; auto).
  apply IH. intros d Hd. apply H; simpl; auto.
Qed.
Lemma lstrip_split s : exists a, s = a ++ lstrip s /\ blanks a /\ (forall c t, lstrip s = c :: t -> ~ blank c).
Proof.
  induction s as [|c s (a & E & Ha & Hc)]; [exists []; repeat split; auto; [intros c []|discriminate]|].
  simpl. destruct (is_space c) eqn:Ec.
  - exists (c :: a). split; [simpl; rewrite <- E; auto|]. split; auto. intros d [<-|Hd]; auto. apply C156_blanks; auto.
  - exists []. split; auto. split; [intros d []|]. intros d t Ed Hb. injection Ed as <- <-. apply blank_space in Hb. congruence.
Qed.
Lemma lstrip_end s b c t : lstrip s = c :: t -> lstrip (s ++ b) = lstrip s ++ b.
Proof.
  induction s as [|d s IH]; simpl; [discriminate|]. destruct (is_space d); auto.
Qed.
Lemma blanks_rev s : blanks s -> blanks (rev s).
Proof. intros H c Hc. apply H. apply in_rev. auto. Qed.

(** [strip] removes blanks at both ends, and all of them *)
Theorem C156_strip : forall s, exists a b, s = a ++ strip s ++ b /\ blanks a /\ blanks b /\
  (forall c t, strip s = c :: t -> ~ blank c) /\ (forall c t, strip s = t ++ [c] -> ~ blank c).
Proof.
  intros s. destruct (lstrip_split s) as (a & E & Ha & Hc).
  destruct (lstrip_split (rev (lstrip s))) as (b & E2 & Hb & Hc2).
  assert (E3 : lstrip s = strip s ++ rev b).
  { unfold strip. rewrite <- (rev_involutive (lstrip s)) at 1. rewrite E2 at 1. rewrite rev_app_distr. auto. }
  exists a, (rev b). split; [rewrite <- E3; auto|]. split; auto. split; [apply blanks_rev; auto|]. split.
  - intros c t Es. rewrite Es in E3. apply (Hc c (t ++ rev b)). rewrite E3. reflexivity.
  - intros c t Es. apply (Hc2 c (rev t)). unfold strip in Es. rewrite <- (rev_involutive (lstrip (rev (lstrip s)))), Es, rev_app_distr. reflexivity.
Qed.
Print Assumptions C156_strip.

Lemma strip_pad a s b : blanks a -> blanks b -> strip (a ++ s ++ b) = strip s.
Proof.
  intros Ha Hb. unfold strip. rewrite lstrip_blanks by auto.
  destruct (lstrip s) as [|c t] eqn:E.
  - destruct (lstrip_split s) as (a' & Es & Ha' & _). rewrite E, app_nil_r in Es. subst a'.
    rewrite lstrip_blanks by auto. rewrite <- (app_nil_r b), lstrip_blanks by auto. reflexivity.
  - rewrite (lstrip_end s b c t E), rev_app_distr, lstrip_blanks, E by (apply blanks_rev; auto). reflexivity.
Qed.

(** indentation, trailing blanks and line ends (LF or CR LF) make no difference *)
Theorem C156_padding : forall float_of int_of ls ls',
  Forall2 (fun l l' => exists a b, blanks a /\ blanks b /\ l' = a ++ l ++ b) ls ls' ->
  read_bspline float_of int_of ls' = read_bspline float_of int_of ls.
Proof.
  intros float_of int_of ls ls' H. unfold read_bspline. generalize 0. generalize Points. generalize (mkSpline [] [] None).
  induction H as [|l l' ls ls' (a & b & Ha & Hb & ->) H IH]; intros sp m k; auto.
  cbn [parse_lines].
  assert (E : parse_line float_of int_of k m sp (a ++ l ++ b) = parse_line float_of int_of k m sp l).
  { unfold parse_line. rewrite strip_pad by auto. reflexivity. }
  rewrite E. destruct (parse_line float_of int_of k m sp l) as [[m1 sp1]|e]; cbn [bind fst snd]; auto.
Qed.
Print Assumptions C156_padding.

(** [lower] changes the letters A-Z only, to the letters a-z in the same order *)
Theorem C156_lower : forall c,
  (65 <= nat_of_ascii c <= 90 -> nat_of_ascii (lower_char c) = nat_of_ascii c + 32) /\
  (nat_of_ascii c < 65 \/ 90 < nat_of_ascii c -> lower_char c = c).
Proof.
  intros c. unfold lower_char. destruct (Nat.leb_spec 65 (nat_of_ascii c)); destruct (Nat.leb_spec (nat_of_ascii c) 90); cbn [andb]; split; intros H1; try lia; auto.
  rewrite nat_ascii_embedding; lia.
Qed.
Print Assumptions C156_lower.

Example C156_padding_meets : exists a b, blanks a /\ blanks b /\ a ++ tx "0.5,1,2" ++ b <> tx "0.5,1,2" /\
  a ++ tx "0.5,1,2" ++ b = tx "  0.5,1,2" ++ [ascii_of_nat 13; ascii_of_nat 10].
Proof.
  exists (tx "  "), [ascii_of_nat 13; ascii_of_nat 10]. split; [|split; [|split]].
  - intros c [<-|[<-|[]]]; unfold blank; vm_compute; tauto.
  - intros c [<-|[<-|[]]]; unfold blank; vm_compute; tauto.
  - discriminate.
  - reflexivity.
Qed.
