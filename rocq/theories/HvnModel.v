(** Model of one iteration and of the run of HVN (/repo/hvd/newton.py 30-303): how the pieces of
    StateModel, HVXModel, StepModel and NewtonModel are put together. *)
From Coq Require Import List Arith Bool Reals ZArith.
From Verif Require Import Num Exn StateModel NewtonModel RefModel HVXModel StepModel ShiftModel IterModel.
Import ListNotations.
Open Scope R_scope.

(** the constructor arguments of HVN (newton.py 36-60) and the external routines: [v_minf] stands for
    the -1.0e308 of hypervolume.py, [v_argsort] for NumPy's argsort, [v_order] for the order in which a
    set is listed (newton.py 301) *)
Record hvn_cfg : Type := mkHvnCfg {
  v_prob : pconfig;
  v_hess : list R -> nat -> nat -> nat -> R;
  v_xl : list R; v_xu : list R;
  v_ref : list R; v_nobj : nat; v_pre : bool; v_limit : bool;
  v_order : list nat -> list nat;
  v_minf : R; v_argsort : list R -> list nat;
  v_solve : list (list R) -> list R -> option (list R);
  v_lstsq : list (list R) -> list R -> list R;
  v_chol : nat -> (nat -> nat -> R) -> option (nat -> nat -> R)
}.

Section Hvn.
Variable V : hvn_cfg.
Let c := v_prob V.
(** newton.py 61, 83-95: [dim_p], [dim_d], [dim], [_constrained]; the numbers of constraints, which the
    constructor finds by evaluating [h] and [g] at a random point, are given *)
Definition vdim_p : nat := c_nvar c.
Definition vdim_d : nat := c_neq c + c_nieq c.
Definition vdim : nat := vdim_p + vdim_d.
Definition vconstrained : bool := match c_h c, c_g c with None, None => false | _, _ => true end.
Definition vupd (s : pstate) (X : list (list R)) : res pstate :=
  update (repeat 0 vdim_p) (repeat (repeat 0 vdim_p) vdim_p) c s X true true.
Definition vprimal (s : pstate) : list (list R) := primal c (s_X s).

(** newton.py 71: the indicator; HypervolumeDerivatives minimises by default *)
Definition hv_obj : hvobj :=
  mkObj vdim_p (v_nobj V) (v_ref V) (cb_point (c_func c)) (cb_point (c_jac c)) (v_hess V) true.
(** newton.py 265-266 [_compute_indicator_value] *)
Definition hv_value (Y : list (list R)) : res R := compute (v_minf V) (v_argsort V) hv_obj None (Some Y).
(** hypervolume_derivatives.py 133-161 [compute_derivatives(X=primal, Y=state.Y, YdX=state.J)]: the
    gradient is reshaped to one row per point *)
Definition grad_rows (N n : nat) (dX : nat -> R) : list (list R) :=
  map (fun i => map (fun k => dX (i * n + k)%nat) (seq 0 n)) (seq 0 N).
Definition hess_rows (n : nat) (H : nat -> nat -> R) : list (list R) :=
  map (fun a => map (H a) (seq 0 n)) (seq 0 n).
Definition hv_gradient (s : pstate) : res (list (list R)) :=
  let X := vprimal s in
  do g <- compute_gradient (v_minf V) (v_argsort V) hv_obj X (Some (s_Y s)) (jac_of s);
  Ok (grad_rows (length X) vdim_p (fst g)).
Definition hv_derivatives (s : pstate) : res (list (list R) * list (list R)) :=
  let X := vprimal s in
  do gh <- compute_hessian (v_minf V) (v_argsort V) hv_obj X (Some (s_Y s)) (jac_of s);
  Ok (grad_rows (length X) vdim_p (fst gh), hess_rows (length X * vdim_p) (snd gh)).

(** what the Newton step reads of the points (newton.py 231-237, 248-252) *)
Definition vpoints (s : pstate) (grad : list (list R)) : list pt :=
  let hs := match s_hess s with Some h => h | None => [] end in
  map (fun i => mkPt (nth i grad []) (skipn vdim_p (nth i (s_X s) [])) (nth i (s_cstr s) []) (nth i (s_active s) [])
                     (nth i (s_grad s) []) (nth i hs []))
      (seq 0 (length (s_X s))).

(** newton.py 241-263 [_compute_netwon_step] *)
Definition vstep (s : pstate) : res (list (list R) * list (list R)) :=
  do gh <- hv_derivatives s;
  hvn_step (v_solve V) (v_lstsq V) (v_chol V) vdim_p vdim_d vconstrained (v_pre V) (snd gh) (vpoints s (fst gh)).

(** newton.py 278-285 [_get_phi_func]: the trial population is evaluated in a copy of the state, so the
    counters of evaluations do not change; [np.linalg.norm] of a matrix is the norm of all its entries *)
Definition trial (X st : list (list R)) (alpha : R) : list (list R) :=
  zip_with (zip_with (fun x t => x + alpha * t)) X st.
Definition vphi (s : pstate) (st : list (list R)) (alpha : R) : res R :=
  do s' <- vupd s (trial (s_X s) st alpha);
  do g <- hv_gradient s';
  do RH <- compute_R vdim_p vdim_d vconstrained (vpoints s' g);
  Ok (norm (concat (fst RH))).

(** line_search.py 4-41, with evaluations that may raise: [n] trials *)
Fixpoint vbacktrack (n : nat) (phi : R -> res R) (phi0 s : R) : res R :=
  match n with
  | O => Ok s
  | S n' =>
      do p <- phi s;
      if armijo (/ 10 ^ 5) (Fin phi0) s (Fin p) then Ok s else vbacktrack n' phi phi0 (s * / 2)
  end.

(** newton.py 178-190, the body of the loop over the layers *)
Definition vlayer_step (s : pstate) (idx : list nat) : res (list (list R) * list (list R)) :=
  do t <- getitem s idx; vstep t.
Definition vlayer_size (s : pstate) (idx : list nat) (st Rm : list (list R)) : res R :=
  do t <- getitem s idx;
  do mx <- max_step_size (v_limit V) (v_xl V) (v_xu V) (vprimal t) (map (firstn vdim_p) st);
  vbacktrack 6 (vphi t st) (norm (concat Rm)) mx.

(** the object; [n_step], [n_R] and [n_size] are empty and [n_value] is [None] while there was no
    iteration.  The user's [metrics] and the texts of the logger are not modelled. *)
Record hvn : Type := mkHvn {
  n_state : pstate; n_iter : nat; n_value : option R;
  n_step : list (list R); n_R : list (list R); n_size : list R;
  g_X : list (list (list R)); g_Y : list (list (list R)); g_val : list (option R); g_R : list fl
}.

(** newton.py 97-115 [_initialize] with an initial population (sampling is in StartModel): the dual
    variables are 1/N *)
Definition hvn_init (X0 : list (list R)) : res hvn :=
  do s <- vupd init (map (fun x => clip_row (v_xl V) (v_xu V) x ++ repeat (/ INR (length X0)) vdim_d) X0);
  Ok (mkHvn s 0 None [] [] [] [] [] [] []).

(** newton.py 80: [eps] *)
Definition veps : R :=
  / 10 ^ 3 * match zip_with (fun u l => u - l) (v_xu V) (v_xl V) with [] => 0 | a :: t => fold_left Rmax t a end.
(** newton.py 287-303 [_check_population] *)
Definition unique_state (s : pstate) : res pstate :=
  getitem s (check_population (v_order V) veps (vprimal s)).

(** newton.py 151-192 [iterate] *)
Definition hvn_iteration (o : hvn) : res hvn :=
  do s <- unique_state (n_state o);
  do v <- hv_value (s_Y s);
  do ls <- hvn_layers (is_feasible c s) (s_Y s);
  let zero := map (fun _ => repeat 0 vdim) (s_X s) in
  do r <- layers_loop (vlayer_step s) (vlayer_size s) (map snd ls) zero zero (map (fun _ => 1) (s_X s));
  let '(st, Rm, size) := r in
  do s' <- vupd s (moved (s_X s) size st);
  Ok (mkHvn s' (n_iter o) (Some v) st Rm size (g_X o) (g_Y o) (g_val o) (g_R o)).

(** newton.py 194-208 [log] *)
Definition hvn_log (o : hvn) : hvn :=
  let s := n_state o in
  mkHvn s (S (n_iter o)) (n_value o) (n_step o) (n_R o) (n_size o)
    (g_X o ++ [vprimal s]) (g_Y o ++ [s_Y s]) (g_val o ++ [n_value o]) (g_R o ++ [median (map norm (n_R o))]).
Definition hvn_iterate (o : hvn) : res hvn := do o' <- hvn_iteration o; Ok (hvn_log o').

(** newton.py 145-149, 210-214: the run *)
Definition hvn_run (fuel : nat) (b : budget) (o : hvn) : res opt := run hvn_iterate fuel (fresh o b).
End Hvn.
