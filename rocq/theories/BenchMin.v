From Coq Require Import List Reals Lra Psatz.
From Verif Require Import ProbModel NewtonModel BenchModel BenchSpec BenchBase BenchZDT.
Import ListNotations.
Open Scope R_scope.

(** the earliest minimum of a continuous function *)
Lemma earliest_min (f : R -> R) a : 0 <= a -> (forall c, 0 <= c <= a -> continuity_pt f c) -> exists s, 0 <= s <= a /\ f s <= f a /\ forall b, 0 <= b < s -> f s < f b.
Proof.
  intros Ha Hc. destruct (continuity_ab_min f 0 a Ha Hc) as (m & Hm & Hma).
  set (E := fun t => 0 <= - t <= a /\ f (- t) = f m). destruct (completeness E) as (s & Hub & Hlub).
  - exists 0. intros t (Ht & _). lra.
  - exists (- m). split; rewrite Ropp_involutive; auto.
  - set (s' := - s). assert (Hs : 0 <= s' <= m).
    { unfold s'. split; [|specialize (Hub (- m)); unfold E in Hub; rewrite Ropp_involutive in Hub; specialize (Hub (conj Hma eq_refl)); lra].
      assert (s <= 0) by (apply Hlub; intros t (Ht & _); lra). lra. }
    assert (Efs : f s' = f m).
    { destruct (Req_dec (f s') (f m)) as [|Hne]; auto. exfalso. pose proof (Hm s' ltac:(lra)) as Hge. assert (Hgt : 0 < f s' - f m) by lra.
      destruct (Hc s' ltac:(lra) (f s' - f m) Hgt) as (d & Hd & Hcl). assert (Hex : forall t, E t -> t <= s - d \/ t > s).
      { intros t (Ht & Et). destruct (Rle_dec t (s - d)); auto. destruct (Rlt_dec s t); auto. exfalso.
        assert (Hdist : Rabs (f (- t) - f s') < f s' - f m).
        { destruct (Req_dec s' (- t)) as [e|ne]; [rewrite <- e, Rminus_diag_eq, Rabs_R0 by auto; auto|]. apply Hcl. split; [split; [exact I|auto]|]. unfold R_met, dist. cbn. unfold R_dist. apply Rabs_def1; unfold s'; lra. }
        rewrite Et in Hdist. rewrite Rabs_left in Hdist by lra. lra. }
      assert (s <= s - d) by (apply Hlub; intros t Et; destruct (Hex t Et); auto; specialize (Hub t Et); lra). lra. }
    exists s'. split; [lra|]. split; [rewrite Efs; apply Hm; lra|]. intros b Hb. rewrite Efs. pose proof (Hm b ltac:(lra)) as Hge. destruct (Req_dec (f m) (f b)) as [e|]; [|lra]. exfalso.
    assert (Hab : 0 <= b <= a) by lra. assert (Eb : E (- b)) by (unfold E; rewrite Ropp_involutive; auto). specialize (Hub (- b) Eb). unfold s' in Hb. lra.
Qed.

(** ** ZDT3 *)
Lemma max_cont e c : continuity_pt (fun t => Rmax t e) c.
Proof.
  intros d Hd. exists d. split; auto. intros x ((_ & _) & Hx). unfold R_met, dist in *. cbn in *. unfold R_dist in *. eapply Rle_lt_trans; [|exact Hx].
  unfold Rmax. destruct (Rle_dec x e), (Rle_dec c e); unfold Rabs; repeat destruct Rcase_abs; lra.
Qed.
Lemma zdt3_phi_cont c : continuity_pt zdt3_phi c.
Proof.
  unfold zdt3_phi. assert (H1 : continuity_pt (fun a => a) c) by (apply derivable_continuous_pt, derivable_pt_id).
  assert (K : forall r, continuity_pt (fun _ => r) c) by (intros; apply continuity_pt_const; intros ? ?; reflexivity).
  assert (H2 : continuity_pt (fun a => sin (10 * PI * a)) c).
  { apply (continuity_pt_comp (fun a => 10 * PI * a) sin); [exact (continuity_pt_mult (fun _ => 10 * PI) (fun a => a) c (K _) H1)|apply continuity_sin]. }
  assert (H3 : continuity_pt (fun t => sqrt (Rmax t eps)) c).
  { apply (continuity_pt_comp (fun t => Rmax t eps) sqrt); [apply max_cont|]. apply continuity_pt_sqrt. pose proof (Rmax_r c eps). unfold eps in *. assert (0 < / 10 ^ 12) by (apply Rinv_0_lt_compat, pow_lt; lra). lra. }
  exact (continuity_pt_minus (fun t => 1 - sqrt (Rmax t eps)) (fun t => t * sin (10 * PI * t)) c (continuity_pt_minus (fun _ => 1) _ c (K 1) H3) (continuity_pt_mult (fun a => a) _ c H1 H2)).
Qed.
Lemma zdt3_front_all n : (2 <= n)%nat -> front (zdt_box n) zdt3 (graph zdt3_dom zdt3_phi).
Proof.
  intros Hn. split; [intros u; apply zdt3_optimal; auto|]. intros x Hx. destruct (zdt3_value n x Hn Hx) as (t & v & Ht & E & Hv). eexists. split; [exact E|].
  destruct (earliest_min zdt3_phi t) as (s & Hs & Hle & Hrec); [lra|intros; apply zdt3_phi_cont|]. exists [s; zdt3_phi s]. split; [exists s; split; auto; split; auto; lra|]. apply wdom2. lra.
Qed.
