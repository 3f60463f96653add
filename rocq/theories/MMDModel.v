(** Model of /repo/hvd/mmd.py: the kernels, MMD and MMDMatching.
    Numbers are reals (JAX computes in single precision unless configured otherwise; rounding is
    not modelled).  The derivatives of the kernel obtained by JAX ([jacrev], [jacfwd]) are
    parameters of the model; theorems state what they are assumed to be, and the two smooth kernels
    of the file are shown to have such derivatives.  Arrays with two axes are lists of rows;
    Jacobians, Hessians and blocks are functions of their indices. *)
From Coq Require Import List Arith Bool Reals.
From Verif Require Import Num Exn NewtonModel HVXModel RefModel IndModel.
Import ListNotations.
Open Scope R_scope.

(** * kernels, lines 23-35 *)
Definition sqnorm (x y : list R) : R := fold_right Rplus 0 (zip_with (fun a b => (a - b) ^ 2) x y).
Definition rational_quadratic (theta alpha : R) (x y : list R) : R :=
  Rpower (sqnorm x y * theta / (2 * alpha) + 1) (- alpha).
Definition rbf (theta : R) (x y : list R) : R := exp (- theta * sqnorm x y).
Definition laplace (theta : R) (x y : list R) : R :=
  exp (- theta * fold_right Rplus 0 (zip_with (fun a b => Rabs (a - b)) x y)).

(** * MMD *)
(** the kernel with its parameter [theta] fixed by the constructor (line 76) and its derivatives
    (lines 77-79): first argument; twice the first argument; first and second argument *)
Record kern : Type := mkKern {
  k_ : list R -> list R -> R;
  k_dx : list R -> list R -> nat -> R;
  k_dx2 : list R -> list R -> nat -> nat -> R;
  k_dxdy : list R -> list R -> nat -> nat -> R
}.
(** the attributes used, lines 64-74 *)
Record mmd : Type := mkMMD {
  m_nvar : nat; m_nobj : nat;
  m_ref : list (list R);                         (* self.ref.reference_set *)
  m_func : list R -> list R;
  m_jac : list R -> nat -> nat -> R;
  m_hess : list R -> nat -> nat -> nat -> R
}.

(** [cdist(A, B, metric=self.k).mean()] *)
Definition ksum (k : list R -> list R -> R) (A B : list (list R)) : R :=
  fold_right Rplus 0 (map (fun a => fold_right Rplus 0 (map (k a) B)) A).
Definition kmean (k : list R -> list R -> R) (A B : list (list R)) : res R :=
  match A, B with
  | [], _ | _, [] => Exn ValueError
  | _, _ => if same_cols A B then Ok (ksum k A B / (INR (length A) * INR (length B))) else Exn ValueError
  end.
(** lines 115-135 *)
Definition mmd_Y (o : mmd) (X Y : option (list (list R))) : res (list (list R)) :=
  match Y with
  | Some Y => Ok Y
  | None => match X with Some X => Ok (map (m_func o) X) | None => Exn AssertionError end
  end.
Definition mmd_compute (q : kern) (o : mmd) (X Y : option (list (list R))) : res R :=
  do Y <- mmd_Y o X Y;
  do RR <- kmean (k_ q) (m_ref o) (m_ref o);
  do YY <- kmean (k_ q) Y Y;
  do RY <- kmean (k_ q) (m_ref o) Y;
  Ok (RR + YY - 2 * RY).

(** lines 244-249 [_check_X]: the matrix is transposed when its number of columns is not [n_var] *)
Definition transpose (X : list (list R)) : list (list R) :=
  map (fun j => map (fun row => nth j row 0) X) (seq 0 (n_cols X)).
Definition check_X (n : nat) (X : list (list R)) : list (list R) :=
  if (n_cols X =? n)%nat then X else transpose X.

(** lines 223-242: objective values and Jacobians *)
Definition mmd_YJ (o : mmd) (X : list (list R)) (Y : option (list (list R))) (J : option (nat -> nat -> nat -> R)) :
  res (list (list R) * (nat -> nat -> nat -> R)) :=
  let Y := match Y with Some Y => Y | None => map (m_func o) X end in
  if (n_cols Y =? m_nobj o)%nat
  then Ok (Y, match J with Some J => J | None => fun i => m_jac o (nth i X []) end)
  else Exn AssertionError.

(** lines 83-94: the gradient in objective space.  [pairwise_dx(A, B)[i, j] = k_dx(A[i], B[j])];
    [jnp.einsum("iij->ij", ..)] takes the diagonal *)
Definition row (A : list (list R)) (i : nat) : list R := nth i A [].
Definition mmd_dY (q : kern) (Y ref : list (list R)) (i a : nat) : R :=
  let N := length Y in
  let M := length ref in
  let yy := sumn N (fun j => k_dx q (row Y i) (row Y j) a) - k_dx q (row Y i) (row Y i) a in
  let yr := sumn M (fun j => k_dx q (row Y i) (row ref j) a) in
  2 * (yy / INR N ^ 2 - yr / (INR N * INR M)).
(** lines 96-113: the blocks of the Hessian in objective space, [blocks[m, l]] *)
Definition mmd_dY2 (q : kern) (Y ref : list (list R)) (m l a b : nat) : R :=
  let N := length Y in
  let M := length ref in
  if (m =? l)%nat then
    2 * ((sumn N (fun j => k_dx2 q (row Y m) (row Y j) a b) - k_dx2 q (row Y m) (row Y m) a b) / INR N ^ 2
         - sumn M (fun j => k_dx2 q (row Y m) (row ref j) a b) / (INR N * INR M))
  else 2 * k_dxdy q (row Y l) (row Y m) a b / INR N ^ 2.

(** lines 12-21 [_assemble_decision_hessian]: entry [(m, i), (n, j)] of the matrix in decision space;
    [p] is the number of objectives *)
Definition assemble (p : nat) (dY2 : nat -> nat -> nat -> nat -> R) (dY : nat -> nat -> R)
  (J : nat -> nat -> nat -> R) (H : nat -> nat -> nat -> nat -> R) (m i n j : nat) : R :=
  sumn p (fun a => sumn p (fun b => J m a i * dY2 m n a b * J n b j))
  + (if (m =? n)%nat then sumn p (fun a => dY m a * H m a i j) else 0).

(** a matrix of the given numbers of rows and columns whose entry [(m * d + i, n * d + j)] is [f m i n j] *)
Definition flat (N d : nat) (f : nat -> nat -> nat -> nat -> R) : list (list R) :=
  mk2 (N * d) (N * d) (fun r c => f (r / d)%nat (r mod d)%nat (c / d)%nat (c mod d)%nat).

(** lines 137-221: gradient, and on request Hessian, in decision space.  A number of objective
    vectors or rows different from the number of points makes the contractions fail. *)
Definition mmd_derivatives (q : kern) (o : mmd) (X : list (list R)) (Y : option (list (list R)))
  (J : option (nat -> nat -> nat -> R)) (hessian : bool) : res (list (list R) * option (list (list R))) :=
  let X := check_X (m_nvar o) X in
  let N := length X in
  do YJ <- mmd_YJ o X Y J;
  let (Y, J) := YJ in
  if negb (length Y =? N)%nat then Exn ValueError else
  match m_ref o with [] => Exn ValueError | _ =>
  let p := m_nobj o in
  let d := n_cols X in
  let dY := mmd_dY q Y (m_ref o) in
  let grad := mk2 N d (fun i k => sumn p (fun a => dY i a * J i a k)) in
  let H i := m_hess o (nth i X []) in
  Ok (grad, if hessian then Some (flat N d (assemble p (mmd_dY2 q Y (m_ref o)) dY J H)) else None)
  end.

(** * MMDMatching *)
(** lines 332-351.  [mt] is [self.ref.match(Y)] followed by reading [self.ref.reference_set]. *)
Definition mmdm_compute (q : kern) (o : mmd) (beta : R) (mt : list (list R) -> res (list (list R))) (X Y : option (list (list R))) : res R :=
  do Y <- mmd_Y o X Y;
  do M <- mt Y;
  do YY <- kmean (k_ q) Y Y;
  do ds <- mapM (fun iy => do r <- nth_res IndexError M (fst iy); Ok (2 - 2 * k_ q (snd iy) r)) (combine (seq 0 (length Y)) Y);
  Ok (beta * YY + fold_right Rplus 0 ds / INR (length ds)).
(** lines 300-312 and 314-330 *)
Definition mmdm_dY (q : kern) (beta : R) (Y M : list (list R)) (i a : nat) : R :=
  let N := length Y in
  let yy := sumn N (fun j => k_dx q (row Y i) (row Y j) a) - k_dx q (row Y i) (row Y i) a in
  2 * (beta * yy / INR N ^ 2 - k_dx q (row Y i) (row M i) a / INR N).
Definition mmdm_dY2 (q : kern) (beta : R) (Y M : list (list R)) (m l a b : nat) : R :=
  let N := length Y in
  if (m =? l)%nat then
    2 * (beta * (sumn N (fun j => k_dx2 q (row Y m) (row Y j) a b) - k_dx2 q (row Y m) (row Y m) a b) / INR N ^ 2
         - k_dx2 q (row Y m) (row M m) a b / INR N)
  else 2 * beta * k_dxdy q (row Y l) (row Y m) a b / INR N ^ 2.

(** The functions of lines 300-330 are compiled by [jit]: [self.beta] is read when the function is
    traced, which happens once for each shape of the arguments (the numbers of rows and columns of
    [Y] and of the matched rows); later calls with the same shape reuse the compiled function.
    There is one cache for the gradient and one for the Hessian. *)
Definition shape : Type := (nat * nat * nat * nat)%type.
Definition shape_of (Y M : list (list R)) : shape := (length Y, n_cols Y, length M, n_cols M).
Definition shape_eqb (s t : shape) : bool :=
  let '(a, b, c, d) := s in let '(a', b', c', d') := t in
  (a =? a')%nat && (b =? b')%nat && (c =? c')%nat && (d =? d')%nat.
Definition cache : Type := list (shape * R).
Definition lookup (c : cache) (s : shape) : option R :=
  match find (fun e => shape_eqb (fst e) s) c with Some e => Some (snd e) | None => None end.
(** the value of beta that a call uses, and the cache after it *)
Definition traced (c : cache) (s : shape) (beta : R) : R * cache :=
  match lookup c s with Some b => (b, c) | None => (beta, (s, beta) :: c) end.

(** the indicator object: beta and the two caches; lines 275-298 *)
Record mmdm : Type := mkMM { mm_beta : R; mm_grad : cache; mm_hess : cache }.
Definition new_mmdm (beta : R) : mmdm := mkMM beta [] [].
(** bootstrap.py 182: [indicator.beta = ...] *)
Definition set_beta (s : mmdm) (beta : R) : mmdm := mkMM beta (mm_grad s) (mm_hess s).

(** lines 353-435 [compute_derivatives] *)
Definition mmdm_derivatives (q : kern) (o : mmd) (s : mmdm) (mt : list (list R) -> res (list (list R)))
  (X : list (list R)) (Y : option (list (list R))) (J : option (nat -> nat -> nat -> R)) (hessian : bool)
  : res (list (list R) * option (list (list R)) * mmdm) :=
  let X := check_X (m_nvar o) X in
  let N := length X in
  do YJ <- mmd_YJ o X Y J;
  let (Y, J) := YJ in
  do M <- mt Y;
  if negb ((length Y =? N)%nat && (length M =? N)%nat) then Exn ValueError else
  let p := m_nobj o in
  let d := n_cols X in
  let (bg, cg) := traced (mm_grad s) (shape_of Y M) (mm_beta s) in
  let dY := mmdm_dY q bg Y M in
  let grad := mk2 N d (fun i k => sumn p (fun a => J i a k * dY i a)) in
  let H i := m_hess o (nth i X []) in
  if hessian then
    let (bh, ch) := traced (mm_hess s) (shape_of Y M) (mm_beta s) in
    Ok (grad, Some (flat N d (assemble p (mmdm_dY2 q bh Y M) dY J H)), mkMM (mm_beta s) cg ch)
  else Ok (grad, None, mkMM (mm_beta s) cg (mm_hess s)).

(** * Trial evaluations of the line searches
    mmd_newton.py 301-307 and 333-345, newton.py 617-628: the attribute [re_match] of the indicator is
    cleared, the derivatives at the trial points are computed, and the attribute is set.
    [compute_derivatives] calls [self.ref.match(Y)] (mmd.py 393, delta_p.py 222), which reads the
    attribute of that name of the reference set.  Only the two objects are modelled here. *)
Record matcher : Type := mkMatcher { ma_rematch : bool; ma_ref : refset }.
Section Trial.
Variable lsa : list (list R) -> res (list nat * list nat).
Variable hausdorff : list (list R) -> list (list R) -> res R.
Variable kmedoids : list (list R) -> nat -> res (list nat).
Definition trial (n_obj : nat) (s : matcher) (Y : list (list R)) : res matcher :=
  let s1 := mkMatcher false (ma_ref s) in
  do r <- match_Y lsa hausdorff kmedoids n_obj (ma_ref s1) Y;
  Ok (mkMatcher true r).
End Trial.
