(** Model of one iteration and of the run of MMDNewton (/repo/hvd/mmd_newton.py 32-379): how the pieces
    of StateModel, RefModel, MMDModel, ShiftModel, StepModel and NewtonModel are put together. *)
From Coq Require Import List Arith Bool Reals ZArith.
From Verif Require Import Num Exn StateModel NewtonModel RefModel HVXModel MMDModel StepModel ShiftModel IterModel.
Import ListNotations.
Open Scope R_scope.

(** the constructor arguments of MMDNewton (lines 38-61): those it shares with DpN ([k_type] is not
    used), the kernel with its parameters ([kwargs], handed to the indicator) and [matching] *)
Record mn_cfg : Type := mkMnCfg { n_base : dpn_cfg; n_kern : kern; n_match : bool }.

Section Mn.
Variable M : mn_cfg.
Let K := n_base M.
Let c := k_prob K.

(** lines 101-106: the indicator, with the current reference set.  [mmdm] holds the weight beta and what
    the compiled functions of MMDMatching have seen; MMD does not use it *)
Definition the_mmd (rs : refset) : mmd :=
  mkMMD (dim_p K) (k_nobj K) (reference_set rs) (cb_point (c_func c)) (cb_point (c_jac c)) (k_hess K).
(** [self.ref.match(Y)], then [self.ref.reference_set] *)
Definition matched_rows (rs : refset) (Y : list (list R)) : res (list (list R)) :=
  do rs' <- match_ K rs Y; Ok (reference_set rs').

(** lines 219-220 [_compute_indicator_value]: MMDMatching matches the reference set, MMD does not *)
Definition mn_value (rs : refset) (i : mmdm) (Y : list (list R)) : res (R * refset) :=
  if n_match M then
    do v <- mmdm_compute (n_kern M) (the_mmd rs) (mm_beta i) (matched_rows rs) None (Some Y);
    do rs' <- match_ K rs Y;
    Ok (v, rs')
  else
    do v <- mmd_compute (n_kern M) (the_mmd rs) None (Some Y);
    Ok (v, rs).

(** [indicator.compute_derivatives(X=primal, Y=state.Y, compute_hessian=.., jacobian=state.J)] *)
Definition mn_derivatives (rs : refset) (i : mmdm) (s : pstate) (hessian : bool)
  : res (list (list R) * option (list (list R)) * refset * mmdm) :=
  let X := primal_of K s in
  if n_match M then
    do d <- mmdm_derivatives (n_kern M) (the_mmd rs) i (matched_rows rs) X (Some (s_Y s)) (jac_of s) hessian;
    do rs' <- match_ K rs (s_Y s);
    Ok (fst (fst d), snd (fst d), rs', snd d)
  else
    do d <- mmd_derivatives (n_kern M) (the_mmd rs) X (Some (s_Y s)) (jac_of s) hessian;
    Ok (fst d, snd d, rs, i).

(** lines 222-247 [_compute_R] for a given gradient; [StepModel.compute_R] is the rest of the method *)
Definition mn_R (s : pstate) (g : list (list R)) : res (list (list R)) :=
  do RH <- compute_R (dim_p K) (dim_d K) (is_constrained K) (points_of K s g); Ok (fst RH).
(** lines 249-273 [_compute_netwon_step] *)
Definition mn_step (rs : refset) (i : mmdm) (s : pstate) : res (list (list R) * list (list R) * refset * mmdm) :=
  do d <- mn_derivatives rs i s true;
  let '(g, h, rs', i') := d in
  match h with
  | None => Exn TypeError
  | Some H =>
      do sr <- mmd_step (k_solve K) (k_lstsq K) (k_chol K) (dim_p K) (dim_d K) (is_constrained K) (k_pre K) H (points_of K s g);
      Ok (fst sr, snd sr, rs', i')
  end.

(** lines 301-307 [phi_func]: the trial population is evaluated in a copy of the state, whose counters
    are dropped; the indicator and its reference set are shared.  [re_match] is set on the indicator,
    which nobody reads, so the reference set is matched with the trial population.  The norm is that
    of all entries. *)
Definition mn_phi (s : pstate) (st : list (list R)) (w : refset * mmdm) (alpha : R) : res (R * (refset * mmdm)) :=
  do s' <- upd K s (mmd_update alpha (s_X s) st);
  do d <- mn_derivatives (fst w) (snd w) s' false;
  let '(g, _, rs', i') := d in
  do Rm <- mn_R s' g;
  Ok (norm (concat Rm), (rs', i')).
(** lines 309-324, as [mmd_line_search], with the changes made by [phi_func]: [n] trials *)
Section Search.
Context {W : Type}.
Variable phi : W -> R -> res (R * W).
Fixpoint halving (n : nat) (phi0 s : R) (w : W) : res (R * W) :=
  match n with
  | O => Ok (s, w)
  | S n' =>
      do pw <- phi w s;
      if armijo (/ 10 ^ 6) (Fin phi0) s (Fin (fst pw)) then Ok (s, snd pw) else halving n' phi0 (s * / 2) (snd pw)
  end.
End Search.
(** lines 293-324 [_backtracking_line_search_global]; [mx] is [max_step_size] *)
Definition mn_search (rs : refset) (i : mmdm) (s : pstate) (st Rm : list (list R)) (mx : list R) : res (R * (refset * mmdm)) :=
  if near_resolution (median (concat (map (firstn (dim_p K)) st))) then Ok (1, (rs, i))
  else do m <- list_minR mx; halving (mn_phi s st) 6 (norm (concat Rm)) m (rs, i).

(** the object; [w_step] and [w_R] are empty, [w_value] and [w_size] are [None] while there was no
    iteration.  The dictionary [history_medoids] is the list of its entries in the order in which they
    were appended; the user's [metrics] and the texts of the logger are not modelled. *)
Record mn : Type := mkMn {
  w_state : pstate; w_ref : refset; w_ind : mmdm; w_iter : nat; w_value : option R;
  w_step : list (list R); w_R : list (list R); w_size : option R;
  e_X : list (list (list R)); e_Y : list (list (list R)); e_val : list (option R); e_R : list fl;
  e_med : list (nat * list R)
}.

(** lines 100-107, 130-147 [_initialize] with an initial population (sampling is in StartModel): the dual
    variables are 0; beta is 0.25.  The state gets no Hessians of the constraints (line 100); the model
    has them in [k_prob K], where they are required to be absent (MnSpec). *)
Definition mn_init (rs : refset) (X0 : list (list R)) : res mn :=
  do s <- upd K init (map (fun x => clip_row (k_xl K) (k_xu K) x ++ repeat 0 (dim_d K)) X0);
  Ok (mkMn s rs (new_mmdm 0.25) 0 None [] [] None [] [] [] [] []).

(** lines 183-196 [newton_iteration] *)
Definition mn_iteration (o : mn) : res mn :=
  let s := w_state o in
  let N := length (s_X s) in
  do v <- mn_value (w_ref o) (w_ind o) (s_Y s);
  do sh <- mmd_shift (w_iter o) N (s_Y s) (map (firstn (dim_p K)) (w_step o)) (snd v);
  do ns <- mn_step (fst sh) (w_ind o) s;
  let '(st0, Rm, rs3, i3) := ns in
  let bx := mmd_box st0 in
  do ls <- mn_search rs3 i3 s (fst bx) Rm (snd bx);
  do s' <- upd K s (mmd_update (fst ls) (s_X s) (fst bx));
  Ok (mkMn s' (fst (snd ls)) (snd (snd ls)) (S (w_iter o)) (Some (fst v)) (fst bx) Rm (Some (fst ls))
        (e_X o) (e_Y o) (e_val o) (e_R o) (e_med o ++ snd sh)).

(** lines 198-212 [log] *)
Definition mn_log (o : mn) : mn :=
  let s := w_state o in
  mkMn s (w_ref o) (w_ind o) (w_iter o) (w_value o) (w_step o) (w_R o) (w_size o)
    (e_X o ++ [primal_of K s]) (e_Y o ++ [s_Y s]) (e_val o ++ [w_value o]) (e_R o ++ [median (map norm (w_R o))]) (e_med o).
Definition mn_iterate (o : mn) : res mn := do o' <- mn_iteration o; Ok (mn_log o').

(** lines 177-181, 214-217: the run *)
Definition mn_run (fuel : nat) (b : budget) (o : mn) : res opt := run mn_iterate fuel (fresh o b).
End Mn.
