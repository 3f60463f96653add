(** Model of the class State of /repo/hvd/base.py. *)
From Coq Require Import List Arith Bool Reals String.
From Verif Require Import Num Exn.
Import ListNotations.
Open Scope R_scope.

(** A user callback: its value at one point and, if its owner has a method
    [<name>_batch], the value of that method on a population
    ([_get_batch_variant], base.py 64-80). *)
Record callback (A : Type) : Type := mkCb {
  cb_point : list R -> A;
  cb_batch : option (list (list R) -> list A)
}.
Arguments mkCb {A}. Arguments cb_point {A}. Arguments cb_batch {A}.

(** [evaluate] on a population, base.py 81-107, for a given function.  [np.stack] of an
    empty list raises. *)
Definition eval_pop {A} (f : callback A) (X : list (list R)) : res (list A) :=
  match cb_batch f with
  | Some b => Ok (b X)
  | None => match X with [] => Exn ValueError | _ => Ok (map (cb_point f) X) end
  end.

Section State.
(** objective values, Jacobians, rows of constraint Jacobians and Hessians are only
    stored: their types are parameters.  Constraint values are vectors of reals.
    Integer dtypes (assignment into an integer array truncates) are not modelled. *)
Context {TY TJ TG TH : Type}.
(** a row of zeros of a constraint Jacobian/Hessian (function given as None) *)
Variable zeroG : TG.
Variable zeroH : TH.

(** the constructor arguments, base.py 13-54 *)
Record config : Type := mkCfg {
  c_nvar : nat; c_neq : nat; c_nieq : nat;
  c_func : callback TY;
  c_jac : callback TJ;
  c_h : option (callback (list R)); c_hjac : option (callback (list TG)); c_hhess : option (callback (list TH));
  c_g : option (callback (list R)); c_gjac : option (callback (list TG)); c_ghess : option (callback (list TH))
}.
Variable c : config.

(** the attributes set by [update]; [s_J] is None after [compute_gradient=False];
    [s_hess] is None while the attribute does not exist *)
Record state : Type := mkSt {
  s_X : list (list R);
  s_Y : list TY;
  s_J : option (list TJ);
  s_cstr : list (list R);
  s_active : list (list bool);
  s_grad : list (list TG);
  s_hess : option (list (list TH));
  n_jac : nat; n_cjac : nat; n_chess : nat
}.
(** after the constructor the attributes X, Y, ... do not exist; the counters are 0 *)
Definition init : state := mkSt [] [] None [] [] [] None 0 0 0.

(** [reshape( *prefix, *output_shape)] of rows that should have [n] entries each *)
Definition check_rows {A} (n : nat) (rows : list (list A)) : res (list (list A)) :=
  if forallb (fun r => (List.length r =? n)%nat) rows then Ok rows else Exn ValueError.
Definition check_row {A} (n : nat) (row : list A) : res (list A) :=
  if (List.length row =? n)%nat then Ok row else Exn ValueError.

(** [evaluate(function, x, (n, ...))] on a population: a missing function gives zeros *)
Definition eval_opt_pop {A} (zero : A) (n : nat) (f : option (callback (list A))) (X : list (list R)) : res (list (list A)) :=
  match f with
  | None => Ok (map (fun _ => repeat zero n) X)
  | Some f => do v <- eval_pop f X; check_rows n v
  end.
(** ... and at one point *)
Definition eval_opt_one {A} (zero : A) (n : nat) (f : option (callback (list A))) (x : list R) : res (list A) :=
  match f with
  | None => Ok (repeat zero n)
  | Some f => check_row n (cb_point f x)
  end.

(** [G >= -1e-4] *)
Definition is_active (g : R) : bool := if Rle_dec (- / 10000) g then true else false.

(** base.py 118-126 [eval_cstr], for one row of equality and inequality values *)
Definition cstr_row (hg : list R * list R) : list R := fst hg ++ snd hg.
Definition active_row (hg : list R * list R) : list bool := repeat true (c_neq c) ++ map is_active (snd hg).
Definition eval_cstr_pop (X : list (list R)) : res (list (list R) * list (list bool)) :=
  do H <- eval_opt_pop 0 (c_neq c) (c_h c) X;
  do G <- eval_opt_pop 0 (c_nieq c) (c_g c) X;
  if (List.length H =? List.length G)%nat then
    Ok (map cstr_row (combine H G), map active_row (combine H G))
  else Exn ValueError.
Definition eval_cstr_one (x : list R) : res (list R * list bool) :=
  do H <- eval_opt_one 0 (c_neq c) (c_h c) x;
  do G <- eval_opt_one 0 (c_nieq c) (c_g c) x;
  Ok (cstr_row (H, G), active_row (H, G)).

(** base.py 128-137 [eval_cstr_jac] and 139-148 [eval_cstr_hess]; the flag says whether
    the counter was increased *)
Definition no_cjac : bool := match c_hjac c, c_gjac c with None, None => true | _, _ => false end.
Definition no_chess : bool := match c_hhess c, c_ghess c with None, None => true | _, _ => false end.
Definition stack_pop {A} (zero : A) (fh fg : option (callback (list A))) (X : list (list R)) : res (list (list A)) :=
  do H <- eval_opt_pop zero (c_neq c) fh X;
  do G <- eval_opt_pop zero (c_nieq c) fg X;
  if (List.length H =? List.length G)%nat then Ok (map (fun hg => fst hg ++ snd hg) (combine H G)) else Exn ValueError.
Definition stack_one {A} (zero : A) (fh fg : option (callback (list A))) (x : list R) : res (list A) :=
  do H <- eval_opt_one zero (c_neq c) fh x;
  do G <- eval_opt_one zero (c_nieq c) fg x;
  Ok (H ++ G).
Definition eval_cjac_pop (X : list (list R)) : res (list (list TG)) :=
  if no_cjac then Ok (map (fun _ => []) X) else stack_pop zeroG (c_hjac c) (c_gjac c) X.
Definition eval_cjac_one (x : list R) : res (list TG) :=
  if no_cjac then Ok [] else stack_one zeroG (c_hjac c) (c_gjac c) x.
Definition eval_chess_pop (X : list (list R)) : res (list (list TH)) :=
  if no_chess then Ok (map (fun _ => repeat zeroH (c_neq c + c_nieq c)) X) else stack_pop zeroH (c_hhess c) (c_ghess c) X.
Definition eval_chess_one (x : list R) : res (list TH) :=
  if no_chess then Ok (repeat zeroH (c_neq c + c_nieq c)) else stack_one zeroH (c_hhess c) (c_ghess c) x.

Definition primal (X : list (list R)) : list (list R) := map (firstn (c_nvar c)) X.

(** base.py 150-159 [update].  Without [compute_hessian] the attribute keeps its value. *)
Definition update (s : state) (X : list (list R)) (grad hess : bool) : res state :=
  let P := primal X in
  let N := List.length X in
  do Y <- eval_pop (c_func c) P;
  do J <- (if grad then do J <- eval_pop (c_jac c) P; Ok (Some J) else Ok None);
  do CA <- eval_cstr_pop P;
  do D <- eval_cjac_pop P;
  do Hs <- (if hess then do Hs <- eval_chess_pop P; Ok (Some Hs) else Ok (s_hess s));
  Ok (mkSt X Y J (fst CA) (snd CA) D Hs
        (n_jac s + if grad then N else 0)
        (n_cjac s + if no_cjac then 0 else N)
        (n_chess s + if hess then (if no_chess then 0 else N) else 0)).

Fixpoint set_row {A} (k : nat) (x : A) (l : list A) : list A :=
  match l with
  | [] => []
  | a :: l' => match k with O => x :: l' | S k' => a :: set_row k' x l' end
  end.
(** [l[k] = x] *)
Definition put_row {A} (k : nat) (x : A) (l : list A) : res (list A) :=
  if (k <? List.length l)%nat then Ok (set_row k x l) else Exn IndexError.
Definition put_opt {A} (e : exn) (k : nat) (x : A) (l : option (list A)) : res (option (list A)) :=
  match l with None => Exn e | Some l => do l' <- put_row k x l; Ok (Some l') end.

(** base.py 161-168 [update_one], [k] not negative.  The partial state left behind by an
    exception is not modelled. *)
Definition update_one (s : state) (x : list R) (k : nat) : res state :=
  let p := firstn (c_nvar c) x in
  do X <- put_row k x (s_X s);
  do Y <- put_row k (cb_point (c_func c) p) (s_Y s);
  do J <- put_opt TypeError k (cb_point (c_jac c) p) (s_J s);
  do CA <- eval_cstr_one p;
  do C <- put_row k (fst CA) (s_cstr s);
  do A <- put_row k (snd CA) (s_active s);
  do d <- eval_cjac_one p;
  do D <- put_row k d (s_grad s);
  do hs <- eval_chess_one p;
  do Hs <- put_opt AttributeError k hs (s_hess s);
  Ok (mkSt X Y J C A D Hs (n_jac s + 1) (n_cjac s + if no_cjac then 0 else 1) (n_chess s + if no_chess then 0 else 1)).

(** base.py 170-180 [is_feasible]; [np.isclose(H, 0, atol=1e-4, rtol=0)] *)
Definition close0 (h : R) : bool := if Rle_dec (Rabs h) (/ 10000) then true else false.
Definition is_feasible (s : state) : list bool :=
  map (fun ca : list R * list bool =>
         forallb close0 (firstn (c_neq c) (fst ca)) && negb (existsb (fun b => b) (skipn (c_neq c) (snd ca))))
      (combine (s_cstr s) (s_active s)).

(** base.py 301-316 [__getitem__] with an array of row numbers *)
Definition take_rows {A} (l : list A) (ix : list nat) : res (list A) :=
  fold_right (fun i r => do r' <- r; match nth_error l i with Some x => Ok (x :: r') | None => Exn IndexError end) (Ok []) ix.
Definition take_opt {A} (e : exn) (l : option (list A)) (ix : list nat) : res (option (list A)) :=
  match l with None => Exn e | Some l => do r <- take_rows l ix; Ok (Some r) end.
Definition getitem (s : state) (ix : list nat) : res state :=
  do X <- take_rows (s_X s) ix;
  do Y <- take_rows (s_Y s) ix;
  do J <- take_opt TypeError (s_J s) ix;
  do C <- take_rows (s_cstr s) ix;
  do A <- take_rows (s_active s) ix;
  do D <- take_rows (s_grad s) ix;
  do Hs <- take_opt AttributeError (s_hess s) ix;
  Ok (mkSt X Y J C A D Hs (n_jac s) (n_cjac s) (n_chess s)).

(** a history of calls *)
Inductive op : Type :=
| OpUpdate (X : list (list R)) (grad hess : bool)
| OpOne (x : list R) (k : nat).
Definition step_op (s : state) (o : op) : res state :=
  match o with OpUpdate X g h => update s X g h | OpOne x k => update_one s x k end.
Fixpoint run_ops (s : state) (ops : list op) : res state :=
  match ops with [] => Ok s | o :: ops' => do s' <- step_op s o; run_ops s' ops' end.
End State.

(** * [save] and [load], base.py 280-299: attribute dictionaries and files *)
Section Pickle.
Variable V : Type.      (* attribute values *)
Definition dict : Type := list (string * V).
Open Scope string_scope.

Definition mem (k : string) (d : dict) : bool := existsb (fun kv => String.eqb k (fst kv)) d.
Definition del (k : string) (d : dict) : res dict :=
  if mem k d then Ok (filter (fun kv => negb (String.eqb k (fst kv))) d) else Exn KeyError.
Definition setattr (k : string) (v : V) (d : dict) : dict :=
  (k, v) :: filter (fun kv => negb (String.eqb k (fst kv))) d.

(** the attributes assigned by the constructor, base.py 42-57 *)
Definition init_keys : list string :=
  ["n_var"; "n_eq"; "n_ieq"; "n_cstr"; "func"; "jac"; "h"; "h_jac"; "h_hess"; "g"; "g_jac"; "g_hess";
   "_constrained"; "n_jac_evals"; "n_cstr_jac_evals"; "n_cstr_hess_evals"].
(** the attributes assigned by [update], [update_one] and the evaluations *)
Definition update_keys : list string :=
  ["X"; "Y"; "J"; "cstr_value"; "active_indices"; "cstr_grad"; "cstr_hess";
   "n_jac_evals"; "n_cstr_jac_evals"; "n_cstr_hess_evals"].

(** files: no file, an empty file, a pickled dictionary, other contents *)
Inductive content : Type := Empty | Pickle (d : dict) | Other.
Definition files : Type := string -> option content.
Definition write (fs : files) (f : string) (c : content) : files :=
  fun g => if String.eqb f g then Some c else fs g.

(** the keys deleted by [save] *)
Definition del_keys : list string := ["func"; "_jac"; "h"; "h_jac"; "h_hess"; "g"; "g_jac"; "g_hess"].
Fixpoint del_all (ks : list string) (d : dict) : res dict :=
  match ks with [] => Ok d | k :: ks' => do d' <- del k d; del_all ks' d' end.

(** opening the file for writing creates it before the dictionary is copied *)
Definition save (fs : files) (filename : string) (d : dict) : files * res unit :=
  let f := (filename ++ ".pkl") in
  let fs' := write fs f Empty in
  match del_all del_keys d with
  | Exn e => (fs', Exn e)
  | Ok d' => (write fs' f (Pickle d'), Ok tt)
  end.
(** [open(filename)] without the extension *)
Definition load (fs : files) (filename : string) : res dict :=
  match fs filename with
  | None => Exn FileNotFoundError
  | Some Empty => Exn EOFError
  | Some (Pickle d) => Ok d
  | Some Other => Exn ValueError      (* pickle.UnpicklingError *)
  end.
End Pickle.

(** * [check_KKT], base.py 182-258 *)
(** the arguments of [scipy.optimize.linprog] (base.py 234-256): minimise [lp_c . z]
    subject to [A_ub z <= b_ub], [A_eq z = b_eq] and lower bounds (None: no bound; there
    are no upper bounds) *)
Record lp : Type := mkLP {
  lp_c : list R;
  lp_Aub : list (list R); lp_bub : list R;
  lp_Aeq : list (list R); lp_beq : list R;
  lp_lower : list (option R)
}.
Definition column (i : nat) (rows : list (list R)) : list R := map (fun r => nth i r 0) rows.
Definition select {A} (mask : list bool) (l : list A) : list A :=
  map snd (filter (fun bl => fst bl) (combine mask l)).
Definition geb (a b : R) : bool := if Rle_dec b a then true else false.
Definition leb (a b : R) : bool := if Rle_dec a b then true else false.

(** the linear program for one point: [J] the objective Jacobian (n_obj rows), [DH] the
    equality rows, [DG] the rows of the active inequalities *)
Definition kkt_lp (n_var : nat) (J DH DG : list (list R)) : lp :=
  let cols := J ++ DH ++ DG in
  let nm := List.length cols in
  let S := map (fun i => column i cols) (seq 0 n_var) in
  mkLP (repeat 0 nm ++ [1])
       (map (fun r => r ++ [-1]) (S ++ map (map Ropp) S))
       (repeat 0 (2 * n_var))
       [repeat 1 (List.length J) ++ repeat 0 (List.length DH + List.length DG) ++ [0]]
       [1]
       (repeat (Some 0) (List.length J) ++ repeat None (List.length DH)
         ++ repeat (Some 0) (List.length DG) ++ [Some 0]).

(** the loop body 205-257; [linprog] returns the solution if [result.success].  Values are
    reals: the tests for infinite or undefined entries never fire. *)
Definition kkt_point (linprog : lp -> option (list R)) (n_var n_eq : nat) (stol ftol atol : R)
    (J : list (list R)) (H G : list R) (D : list (list R)) : bool :=
  if existsb (fun h => negb (leb (Rabs h) ftol)) H || existsb (fun g => negb (leb g ftol)) G then false
  else
    let DH := firstn n_eq D in
    let DG := select (map (fun g => geb g (- atol)) G) (skipn n_eq D) in
    match linprog (kkt_lp n_var J DH DG) with
    | None => false
    | Some z => leb (last z 0) stol
    end.

(** [D] has shape (N, n_cstr, n_var), or (N, 0, n_var) without constraint Jacobians *)
Definition check_KKT (linprog : lp -> option (list R)) (n_var n_eq n_ieq : nat) (stol ftol atol : R)
    (J : option (list (list (list R)))) (C : list (list R)) (D : list (list (list R))) : res (list bool) :=
  if negb (geb stol 0 && geb ftol 0 && geb atol 0) then Exn ValueError
  else match J with
  | None => Exn RuntimeError
  | Some J =>
    if (0 <? n_eq + n_ieq)%nat && negb (forallb (fun d => (List.length d =? n_eq + n_ieq)%nat) D) then Exn RuntimeError
    else Ok (map (fun jcd => kkt_point linprog n_var n_eq stol ftol atol (fst jcd)
                     (firstn n_eq (fst (snd jcd))) (skipn n_eq (fst (snd jcd))) (snd (snd jcd)))
                 (combine J (combine C D)))
  end.
