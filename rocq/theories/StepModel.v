(** Model of the root-finding problem and of the Newton step of /repo/hvd/newton.py (HVN
    216-263, DpN 534-591) and /repo/hvd/mmd_newton.py (222-273). *)
From Coq Require Import List Arith Bool Reals.
From Verif Require Import Num Exn MiscModel StateModel NewtonModel RefModel.
Import ListNotations.
Open Scope R_scope.

(** what the methods read of one point of the population: the derivative of the indicator
    with respect to it, the dual variables, [cstr_value[i]], [active_indices[i]],
    [cstr_grad[i]] (one row per constraint), [cstr_hess[i]] (one matrix per constraint) *)
Record pt : Type := mkPt {
  pt_grad : list R; pt_dual : list R; pt_cval : list R; pt_act : list bool;
  pt_D : list (list R); pt_B : list (list (list R))
}.

(** indexing with a mask *)
Definition bmask {A} (mask : list bool) (l : list A) : res (list A) :=
  if (length mask =? length l)%nat then Ok (mask_row mask l) else Exn IndexError.
(** [a + b] for vectors; broadcasting of length 1 is not modelled *)
Definition vadd (a b : list R) : res (list R) :=
  if (length a =? length b)%nat then Ok (zip_with Rplus a b) else Exn ValueError.
(** [np.einsum("j,jk->k", w, rows)], rows of length [d] *)
Definition lincomb (d : nat) (w : list R) (rows : list (list R)) : list R :=
  map (fun a => dotR w (column a rows)) (seq 0 d).
(** [np.einsum("i...,i", B, w)] *)
Definition matcomb (d : nat) (w : list R) (B : list (list (list R))) : list (list R) :=
  map (fun a => lincomb d w (map (fun M => nth a M []) B)) (seq 0 d).

(** newton.py 232-237, 549-554, mmd_newton.py 238-246 for one point: the first block of R, the
    values of the active constraints and their gradients *)
Definition residual (d : nat) (p : pt) : res (list R * list R * list (list R)) :=
  do dH <- bmask (pt_act p) (pt_D p);
  do w <- bmask (pt_act p) (pt_dual p);
  do g <- vadd (pt_grad p) (lincomb d w dH);
  do v <- bmask (pt_act p) (pt_cval p);
  Ok (g, v, dH).
(** the row of the matrix R: zero where the constraint is not active *)
Definition R_row (act : list bool) (r : list R * list R * list (list R)) : list R :=
  let '(g, v, _) := r in g ++ fill 0 act v.

(** newton.py 216-239 and mmd_newton.py 222-247 [_compute_R]: the matrix R and, with
    constraints, the gradients of the active ones.  [nc] is [n_eq + n_ieq]. *)
Definition compute_R (d nc : nat) (constrained : bool) (ps : list pt) : res (list (list R) * option (list (list (list R)))) :=
  if constrained then
    if forallb (fun p => (length (pt_act p) =? nc)%nat) ps then
      do rs <- mapM (residual d) ps;
      Ok (map (fun pr => R_row (pt_act (fst pr)) (snd pr)) (combine ps rs), Some (map snd rs))
    else Exn IndexError
  else Ok (map pt_grad ps, None).

(** [scipy.linalg.block_diag] of blocks with [d] columns *)
Fixpoint block_diag (d : nat) (bs : list (list (list R))) : list (list R) :=
  match bs with
  | [] => []
  | b :: bs' => map (fun r => r ++ repeat 0 (length bs' * d)) b ++ map (fun r => repeat 0 d ++ r) (block_diag d bs')
  end.
(** [np.c_[A, B]], [np.r_[A, B]] and [A + B] for matrices *)
Definition hcat (A B : list (list R)) : res (list (list R)) :=
  if (length A =? length B)%nat then Ok (zip_with (@app R) A B) else Exn ValueError.
Definition vcat (w : nat) (A B : list (list R)) : res (list (list R)) :=
  if forallb (fun r => (length r =? w)%nat) (A ++ B) then Ok (A ++ B) else Exn ValueError.
Definition madd (A B : list (list R)) : res (list (list R)) :=
  if (length A =? length B)%nat then mapM (fun ab => vadd (fst ab) (snd ab)) (combine A B) else Exn ValueError.
(** [np.r_[np.c_[A, H.T], np.c_[H, Z]]] where [A] has [n] columns *)
Definition kkt_matrix (n : nat) (A H : list (list R)) : res (list (list R)) :=
  let p := length H in
  do top <- hcat A (transpose 0 n H);
  do bot <- hcat H (repeat (repeat 0 p) p);
  vcat (n + p) top bot.

Section Solve.
(** [spsolve]/[scipy.linalg.solve]: [None] if it raises or warns *)
Variable solve : list (list R) -> list R -> option (list R).
(** [np.linalg.lstsq(A, b)[0]] *)
Variable lstsq : list (list R) -> list R -> list R.
(** [scipy.linalg.cholesky] for matrices of the given size *)
Variable chol : nat -> (nat -> nat -> R) -> option (nat -> nat -> R).

Definition newton_dir (A : list (list R)) (b : list R) : list R :=
  map Ropp (match solve A b with Some x => x | None => lstsq A b end).
(** [precondition_hessian], on lists of rows *)
Definition precond (A : list (list R)) : list (list R) :=
  let n := length A in
  let P := precondition_hessian n (chol n) (fun i j => nth j (nth i A []) 0) in
  map (fun i => map (P i) (seq 0 n)) (seq 0 n).
Definition mneg (A : list (list R)) : list (list R) := map (map Ropp) A.

(** the vectorised system of HVN and MMDNewton; [A] is the (possibly preconditioned)
    Hessian of the indicator; [curv]: whether the Hessians of the constraints are added *)
Definition global_step (d nc : nat) (constrained curv : bool) (A : list (list R)) (ps : list pt) : res (list (list R) * list (list R)) :=
  let N := length ps in
  do RH <- compute_R d nc constrained ps;
  do DR <- match snd RH with
           | None => Ok A
           | Some dH =>
               let H := block_diag d dH in
               do A' <- (if curv then
                           do M <- mapM (fun p => do B <- bmask (pt_act p) (pt_B p);
                                                  do w <- bmask (pt_act p) (pt_dual p);
                                                  Ok (matcomb d w B)) ps;
                           madd A (block_diag d M)
                         else Ok A);
               kkt_matrix (N * d) A' H
           end;
  let acts := if constrained then map pt_act ps else map (fun _ => []) ps in
  let b := matrix_to_Nd_vector (fst RH) d acts in
  do st <- Nd_vector_to_matrix 0 (newton_dir DR b) N (if constrained then d + nc else d) d acts;
  Ok (st, fst RH).

(** newton.py 241-263 HVN._compute_netwon_step; [Hs] is the Hessian of the indicator *)
Definition hvn_step (d nc : nat) (constrained pre : bool) (Hs : list (list R)) (ps : list pt) :=
  global_step d nc constrained true (if pre then mneg (precond (mneg Hs)) else Hs) ps.
(** mmd_newton.py 249-273 MMDNewton._compute_netwon_step: the constraint Hessians are not used.
    Its own [Nd_vector_to_matrix] (17-29) takes the masks with the leading columns of [True]
    that the one of utils.py 34-47 adds first; the rest is the same. *)
Definition mmd_step (d nc : nat) (constrained pre : bool) (Hs : list (list R)) (ps : list pt) :=
  global_step d nc constrained false (if pre then precond Hs else Hs) ps.

(** newton.py 559-591 DpN._compute_netwon_step, the loop body 575-590 with the data of its row;
    without constraint Hessians [S[r]] is zero, the empty sum *)
Definition dpn_point (d nc : nat) (constrained pre : bool) (Hr : list (list R)) (p : pt) : res (list R * list R) :=
  let A := if pre then precond Hr else Hr in
  if constrained then
    if (length (pt_act p) =? nc)%nat then
      do r <- residual d p;
      do B <- bmask (pt_act p) (pt_B p);
      do w <- bmask (pt_act p) (pt_dual p);
      do A' <- madd A (matcomb d w B);
      do DR <- kkt_matrix d A' (snd r);
      do s <- fill_row 0 (repeat true d ++ pt_act p) (newton_dir DR (fst (fst r) ++ snd (fst r)));
      Ok (s, R_row (pt_act p) r)
    else Exn IndexError
  else
    do s <- fill_row 0 (repeat true d) (newton_dir A (pt_grad p));
    Ok (s, pt_grad p).
Definition dpn_step (d nc : nat) (constrained pre : bool) (Hs : list (list (list R))) (ps : list pt) : res (list (list R) * list (list R)) :=
  if (length Hs =? length ps)%nat then
    do rs <- mapM (fun hp => dpn_point d nc constrained pre (fst hp) (snd hp)) (combine Hs ps);
    Ok (map fst rs, map snd rs)
  else Exn IndexError.
End Solve.

(** * newton.py 178-192: the loop of HVN.iterate over the layers and the update *)
(** [M[idx] = rows] *)
Definition put_rows {A} (M : list A) (idx : list nat) (rows : list A) : res (list A) :=
  if (length idx =? length rows)%nat then
    if forallb (fun i => (i <? length M)%nat) idx then
      Ok (fold_left (fun M ir => set_row (fst ir) (snd ir) M) (combine idx rows) M)
    else Exn IndexError
  else Exn ValueError.
Section Iterate.
(** [_compute_netwon_step(self.state[idx])] *)
Variable layer_step : list nat -> res (list (list R) * list (list R)).
(** [_compute_max_step_size] and [backtracking_line_search] for the layer: the step size *)
Variable layer_size : list nat -> list (list R) -> list (list R) -> res R.
Fixpoint layers_loop (ls : list (list nat)) (st Rm : list (list R)) (size : list R) : res (list (list R) * list (list R) * list R) :=
  match ls with
  | [] => Ok (st, Rm, size)
  | idx :: ls' =>
      do sr <- layer_step idx;
      do st' <- put_rows st idx (fst sr);
      do Rm' <- put_rows Rm idx (snd sr);
      do a <- layer_size idx (fst sr) (snd sr);
      do size' <- put_rows size idx (map (fun _ => a) idx);
      layers_loop ls' st' Rm' size'
  end.
(** the new [X] handed to [state.update], and the matrix R; [dim] columns *)
Definition hvn_update (dim : nat) (ls : list (list nat)) (X : list (list R)) : res (list (list R) * list (list R)) :=
  let zero := map (fun _ => repeat 0 dim) X in
  do r <- layers_loop ls zero zero (map (fun _ => 1) X);
  let '(st, Rm, size) := r in
  Ok (zip_with (fun x sa => zip_with (fun u v => u + v * snd sa) x (fst sa)) X (combine st size), Rm).
End Iterate.
