(** Model of one iteration and of the run of DpN (/repo/hvd/newton.py 316-690): how the pieces of
    StateModel, RefModel, IndModel, ShiftModel, StepModel and NewtonModel are put together. *)
From Coq Require Import List Arith Bool Reals ZArith.
From Verif Require Import Num Exn StateModel NewtonModel RefModel HVXModel IndModel StepModel ShiftModel.
Import ListNotations.
Open Scope R_scope.

(** objectives are vectors, Jacobians functions of (objective, variable), gradients and Hessians
    of the constraints vectors and matrices *)
Notation pstate := (@state (list R) (nat -> nat -> R) (list R) (list (list R))).
Notation pconfig := (@config (list R) (nat -> nat -> R) (list R) (list (list R))).

(** the constructor arguments of DpN (newton.py 331-352) and the external routines *)
Record dpn_cfg : Type := mkDpnCfg {
  k_prob : pconfig;
  k_hess : list R -> nat -> nat -> nat -> R;
  k_xl : list R; k_xu : list R;
  k_type : kind; k_pre : bool; k_nobj : nat;
  k_lsa : list (list R) -> res (list nat * list nat);
  k_hausdorff : list (list R) -> list (list R) -> res R;
  k_kmedoids : list (list R) -> nat -> res (list nat);
  k_solve : list (list R) -> list R -> option (list R);
  k_lstsq : list (list R) -> list R -> list R;
  k_chol : nat -> (nat -> nat -> R) -> option (nat -> nat -> R)
}.

Section Dpn.
Variable K : dpn_cfg.
Let c := k_prob K.
(** newton.py 409-422: [dim_p], [dim_d], [dim], [_constrained] *)
Definition dim_p : nat := c_nvar c.
Definition dim_d : nat := c_neq c + c_nieq c.
Definition is_constrained : bool := match c_h c, c_g c with None, None => false | _, _ => true end.
Definition zero_row : list R := repeat 0 dim_p.
Definition zero_mat : list (list R) := repeat zero_row dim_p.
Definition upd (s : pstate) (X : list (list R)) : res pstate := update zero_row zero_mat c s X true true.
Definition upd_one (s : pstate) (x : list R) (i : nat) : res pstate := update_one zero_row zero_mat c s x i.
Definition match_ (rs : refset) (Y : list (list R)) : res refset :=
  match_Y (k_lsa K) (k_hausdorff K) (k_kmedoids K) (k_nobj K) rs Y.

(** finite numbers; the exponent is 2, where GD never produces others (IterProof) *)
Definition fin (x : fl) : res R := match x with Fin r => Ok r | _ => Exn RuntimeError end.

(** newton.py 442-444: the indicators, with the current reference set *)
Definition the_ind (rs : refset) : ind :=
  mk_ind (reference_set rs) (cb_point (c_func c)) (cb_point (c_jac c)) (k_hess K) 2.
Definition jac_of (s : pstate) : option (nat -> nat -> nat -> R) :=
  match s_J s with Some J => Some (fun i => nth i J (fun _ _ => 0)) | None => None end.
Definition primal_of (s : pstate) : list (list R) := primal c (s_X s).

(** newton.py 530-532 [_compute_indicator_value]: GD with the reference set as it is, then IGD,
    which matches the reference set first *)
Definition indicator_values (rs : refset) (Y : list (list R)) : res (R * R * refset) :=
  do g <- gd_compute (the_ind rs) None (Some Y);
  do gd <- fin g;
  do rs' <- match_ rs Y;
  do igd <- igdm_compute (the_ind rs) (fun _ => Ok (reference_set rs')) None (Some Y);
  Ok (gd, igd, rs').

(** [active_indicator.compute_derivatives(X=primal, Y=state.Y, ..., Jacobian=state.J)]; IGD matches first *)
Definition derivatives (a : indicator) (rs : refset) (s : pstate) (hessian : bool)
  : res (list (list R) * option (list (list (list R))) * refset) :=
  let X := primal_of s in
  match a with
  | TheGD =>
      do gh <- gd_derivatives (the_ind rs) X (Some (s_Y s)) (jac_of s) hessian;
      do g <- mapM (mapM fin) (fst gh);
      do h <- match snd gh with None => Ok None | Some h => do h' <- mapM (mapM (mapM fin)) h; Ok (Some h') end;
      Ok (g, h, rs)
  | TheIGD =>
      do rs' <- match_ rs (s_Y s);
      do gh <- igd_derivatives (the_ind rs) (Some (fun _ => Ok (reference_set rs'))) X (Some (s_Y s)) (jac_of s) hessian;
      Ok (fst gh, snd gh, rs')
  end.

(** what the Newton step reads of the points *)
Definition points_of (s : pstate) (grad : list (list R)) : list pt :=
  let hs := match s_hess s with Some h => h | None => [] end in
  map (fun i => mkPt (nth i grad []) (skipn dim_p (nth i (s_X s) [])) (nth i (s_cstr s) []) (nth i (s_active s) [])
                     (nth i (s_grad s) []) (nth i hs []))
      (seq 0 (length (s_X s))).

(** newton.py 534-557 [_compute_R]: the rows of R_list *)
Definition R_list (s : pstate) (grad : list (list R)) : res (list (list R)) :=
  if is_constrained
  then mapM (fun p => do r <- residual dim_p p; Ok (fst (fst r) ++ snd (fst r))) (points_of s grad)
  else Ok grad.

(** newton.py 559-591 [_compute_netwon_step] *)
Definition newton_step (a : indicator) (rs : refset) (s : pstate) : res (list (list R) * list (list R) * refset) :=
  do d <- derivatives a rs s true;
  let '(g, h, rs') := d in
  match h with
  | None => Exn TypeError
  | Some Hs =>
      do sr <- dpn_step (k_solve K) (k_lstsq K) (k_chol K) dim_p dim_d is_constrained (k_pre K) Hs (points_of s g);
      Ok (fst sr, snd sr, rs')
  end.

(** newton.py 660-690 [_handle_box_constraint]: the dual components are kept *)
Definition box_row (x st : list R) : res (list R * R) :=
  let r := dpn_box (k_xl K) (k_xu K) x (firstn dim_p st) in
  do m <- fin (snd r);
  Ok (fst r ++ skipn dim_p st, m).
Definition handle_box (s : pstate) (st : list (list R)) : res (list (list R) * list R) :=
  do rs <- mapM (fun xs => box_row (fst xs) (snd xs)) (combine (primal_of s) st);
  Ok (map fst rs, map snd rs).

Definition norm (v : list R) : R := sqrt (fold_right Rplus 0 (map (fun a => a * a) v)).

(** newton.py 618-628 [phi_func]: the trial point replaces point [i] in a copy of the state; IGD
    matches the (shared) reference set with the trial population; the counter of Jacobian
    evaluations of the copy is kept.  The second component is what the call changes. *)
Definition trial_point (s : pstate) (st : list (list R)) (i : nat) (alpha : R) : list R :=
  zip_with (fun x t => x + alpha * t) (nth i (s_X s) []) (nth i st []).
Definition set_njac (s : pstate) (n : nat) : pstate :=
  mkSt (s_X s) (s_Y s) (s_J s) (s_cstr s) (s_active s) (s_grad s) (s_hess s) n (n_cjac s) (n_chess s).
Definition phi_func (a : indicator) (s : pstate) (st : list (list R)) (i : nat) (w : refset * nat) (alpha : R)
  : res (R * (refset * nat)) :=
  do s' <- upd_one (set_njac s (snd w)) (trial_point s st i alpha) i;
  do d <- derivatives a (fst w) s' false;
  let '(g, _, rs') := d in
  do Rl <- R_list s' g;
  do r <- nth_res IndexError Rl i;
  Ok (norm r, (rs', n_jac s')).

(** newton.py 637-657, one point: as [cubic_search], with the changes made by [phi_func] *)
Section Search.
Context {W : Type}.
Variable phi : W -> R -> res (R * W).
Fixpoint search (n : nat) (phi0 : R) (s2 p2 s1 : R) (w : W) : res (R * W) :=
  match n with
  | O => Ok (s1, w)
  | S n' =>
      do pw <- phi w s1;
      let (p1, w') := (fst pw, snd pw) in
      if armijo (/ 10 ^ 4) (Fin phi0) s1 (Fin p1) then Ok (s1, w')
      else search n' phi0 s1 p1 (next_step s2 s1 (Fin p2) (Fin p1)) w'
  end.
End Search.
(** newton.py 611-658 [_backtracking_line_search] *)
Fixpoint search_all (a : indicator) (s : pstate) (st Rm : list (list R)) (mx : list R) (is : list nat) (w : refset * nat)
  : res (list R * (refset * nat)) :=
  match is with
  | [] => Ok ([], w)
  | i :: is' =>
      do m <- nth_res IndexError mx i;
      do Ri <- nth_res IndexError Rm i;
      do r <- search (phi_func a s st i) 8 (norm Ri) 0 (norm Ri) m w;
      do rs <- search_all a s st Rm mx is' (snd r);
      Ok (fst r :: fst rs, snd rs)
  end.
Definition line_search (a : indicator) (rs : refset) (s : pstate) (st Rm : list (list R)) (mx : list R)
  : res (list R * (refset * nat)) :=
  if forallb (forallb close_to_0) st then Ok (map (fun _ => 1) st, (rs, n_jac s))
  else search_all a s st Rm mx (seq 0 (length (s_X s))) (rs, n_jac s).

(** the object; [d_step], [d_R] and [d_size] are empty while the attributes do not exist.  The
    dictionary [history_medoids] is the list of its entries in the order in which they were appended;
    the user's [metrics] and the texts of the logger are not modelled. *)
Record dpn : Type := mkDpn {
  d_state : pstate; d_ref : refset; d_iter : nat;
  d_gd : R; d_igd : R;
  d_step : list (list R); d_R : list (list R); d_size : list R;
  h_X : list (list (list R)); h_Y : list (list (list R)); h_val : list R; h_R : list fl;
  h_med : list (nat * list R)
}.

(** newton.py 423-440 [_initialize] with an initial population (sampling is in StartModel), the
    dual variables are 0 *)
Definition dpn_init (rs : refset) (X0 : list (list R)) : res dpn :=
  do s <- upd init (map (fun x => clip_row (k_xl K) (k_xu K) x ++ repeat 0 dim_d) X0);
  Ok (mkDpn s rs 0 0 0 [] [] [] [] [] [] [] []).

(** newton.py 494-506 [newton_iteration] *)
Definition moved (X : list (list R)) (size : list R) (st : list (list R)) : list (list R) :=
  zip_with (fun x at_ => zip_with (fun u v => u + fst at_ * v) x (snd at_)) X (combine size st).
Definition newton_iteration (o : dpn) : res dpn :=
  let s := d_state o in
  let N := length (s_X s) in
  do v <- indicator_values (d_ref o) (s_Y s);
  let '(gd, igd, rs1) := v in
  do sh <- dpn_shift (d_iter o) N (s_Y s) (map (firstn dim_p) (d_step o)) rs1;
  let a := active_indicator (k_type K) gd igd in
  do ns <- newton_step a (fst sh) s;
  let '(st, Rm, rs3) := ns in
  do bx <- handle_box s st;
  do ls <- line_search a rs3 s (fst bx) Rm (snd bx);
  do s' <- upd (set_njac s (snd (snd ls))) (moved (s_X s) (fst ls) (fst bx));
  Ok (mkDpn s' (fst (snd ls)) (d_iter o) gd igd (fst bx) Rm (fst ls)
        (h_X o) (h_Y o) (h_val o) (h_R o) (h_med o ++ snd sh)).

(** newton.py 508-523 [log] *)
Definition log (o : dpn) : dpn :=
  let s := d_state o in
  mkDpn s (d_ref o) (S (d_iter o)) (d_gd o) (d_igd o) (d_step o) (d_R o) (d_size o)
    (h_X o ++ [primal_of s]) (h_Y o ++ [s_Y s]) (h_val o ++ [curr_indicator_value (d_gd o) (d_igd o)])
    (h_R o ++ [median (map norm (d_R o))]) (h_med o).
Definition dpn_iterate (o : dpn) : res dpn := do o' <- newton_iteration o; Ok (log o').

(** newton.py 488-492, 525-528: the run; [stop_dict] is empty at the start.  [iter_count] is only
    compared: the counter of [run] (NewtonModel) and [d_iter] agree (IterProof) *)
Definition dpn_run (fuel : nat) (b : budget) (o : dpn) : res opt :=
  run dpn_iterate fuel (fresh o b).
End Dpn.
