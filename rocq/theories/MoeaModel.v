(** Model of hvd/moea/sms_emoa.py, hvd/moea/moead.py, the class DynamicHypervolume of hvd/exact.py and
    hvd/problems/_pymoo_factory.py.  Real arithmetic instead of floating point. *)
From Coq Require Import String List Arith Bool Reals ZArith.
From Verif Require Import Num Exn NewtonModel RefModel.
Import ListNotations.
Open Scope R_scope.

(** * sms_emoa.py: the Monte-Carlo estimators *)
Definition rsum (l : list R) : R := fold_right Rplus 0 l.
(** lines 24-30, as a plain function (see [alpha_traced] for the decorator) *)
Definition alpha (N : nat) (k : R) : list R :=
  0 :: map (fun i => fold_right Rmult 1 (map (fun j => (k - INR j) / (INR N - INR j)) (seq 1 (i - 1))) / INR i) (seq 1 N).
(** lines 37, 48, 76 and 92: [dom.sum(axis=0)], one count per column; [ns] is the number of columns *)
Fixpoint add_col (r : list bool) (c : list nat) : list nat :=
  match r, c with b :: r', n :: c' => ((if b then 1 else 0) + n)%nat :: add_col r' c' | _, _ => c end.
Definition col_sums (ns : nat) (dom : list (list bool)) : list nat := fold_right add_col (repeat 0%nat ns) dom.
(** [n_dom[dom[i]]] *)
Fixpoint select (r : list bool) (c : list nat) : list nat :=
  match r, c with b :: r', n :: c' => if b then n :: select r' c' else select r' c' | _, _ => [] end.
(** lines 40 and 51: [np.sum(a[n_dom[dom[i]]])] for every row *)
Definition row_sums (a : list R) (nd : list nat) (dom : list (list bool)) : res (list R) :=
  mapM (fun r => do v <- mapM (fun n => nth_res IndexError a n) (select r nd); Ok (rsum v)) dom.
(** lines 34-41; division of a float by the number 0 of samples gives NaN *)
Definition hv_monte_carlo (ns : nat) (dom : list (list bool)) (V : R) : res fl :=
  do s <- row_sums (alpha (length dom) (INR (length dom))) (col_sums ns dom) dom;
  Ok (if (ns =? 0)%nat then NaN else Fin (rsum s / INR ns * V)).
(** lines 45-52 *)
Definition hvc_monte_carlo (ns : nat) (dom : list (list bool)) (V : R) (k : nat) : res (list fl) :=
  do s <- row_sums (alpha (length dom) (INR k)) (col_sums ns dom) dom;
  Ok (map (fun x => if (ns =? 0)%nat then NaN else Fin (x / INR ns * V)) s).

(** the decorator [jax.jit] of line 23 turns both arguments into abstract values before the body runs;
    [np.zeros(N + 1)] needs a concrete size and raises TracerIntegerConversionError, a TypeError *)
Inductive aval := Concrete (n : nat) | Traced.
Definition as_size (v : aval) : res nat := match v with Concrete n => Ok n | Traced => Exn TypeError end.
Definition jit2 {A} (f : aval -> aval -> res A) (x y : aval) : res A := f Traced Traced.
(** lines 23-25, the rest of the body is not reached *)
Definition alpha_traced (N k : aval) : res (list R) :=
  jit2 (fun N k => do n <- as_size N; do kk <- as_size k; Ok (alpha n (INR kk))) N k.
(** lines 33-39: the shape of a traced array is concrete, the call of [alpha] comes first *)
Definition hv_monte_carlo_traced (ns : nat) (dom : list (list bool)) (V : R) : res fl :=
  do a <- alpha_traced (Concrete (length dom)) (Concrete (length dom));
  do s <- row_sums a (col_sums ns dom) dom;
  Ok (if (ns =? 0)%nat then NaN else Fin (rsum s / INR ns * V)).

(** line 74: [S] are the random samples of line 72, drawn by numpy *)
Definition rowle (f s : list R) : bool := forallb (fun ab => rleb (fst ab) (snd ab)) (combine f s).
Definition dom_matrix (F S : list (list R)) : list (list bool) := map (fun f => map (rowle f) S) F.
Record mc := mkMC { m_F : list (list R); m_dom : list (list bool); m_V : R; m_hv : fl; m_hvc : list fl }.
(** lines 69-70; the minimum of an empty array raises ValueError *)
Definition ideal (F : list (list R)) : res (list R) :=
  match F with [] => Exn ValueError | f :: t => Ok (fold_left (fun a b => map (fun p => Rmin (fst p) (snd p)) (combine a b)) t f) end.
Definition box_volume (ref_point lo : list R) : R := fold_right Rmult 1 (map (fun p => fst p - snd p) (combine ref_point lo)).
(** lines 66-83; [k] is [n_exclusive] *)
Definition mc_calc (k : nat) (ref_point : list R) (F S : list (list R)) : res mc :=
  do lo <- ideal F;
  let V := box_volume ref_point lo in
  let dom := dom_matrix F S in
  do hv <- hv_monte_carlo (length S) dom V;
  do hvc <- hvc_monte_carlo (length S) dom V k;
  Ok (mkMC F dom V hv hvc).
(** position of an index into a sequence of [n] elements, negative indices count from the end *)
Definition norm_index (n : nat) (k : Z) : res nat :=
  if (k <? 0)%Z then (if (Z.of_nat n + k <? 0)%Z then Exn IndexError else Ok (Z.to_nat (Z.of_nat n + k)))
  else if (k <? Z.of_nat n)%Z then Ok (Z.to_nat k) else Exn IndexError.
(** [np.delete(a, k, axis=0)] *)
Fixpoint drop_at {A} (i : nat) (l : list A) : list A :=
  match l, i with [], _ => [] | _ :: t, O => t | a :: t, S i' => a :: drop_at i' t end.
Definition np_delete {A} (l : list A) (k : Z) : res (list A) := do i <- norm_index (length l) k; Ok (drop_at i l).
Definition fsub (a b : fl) : fl := match a, b with Fin x, Fin y => Fin (x - y) | _, _ => NaN end.
(** lines 85-93; [ns] samples, [m_hv] and [m_hvc] are finite or NaN only *)
Definition mc_delete (ns k_excl : nat) (s : mc) (k : Z) : res mc :=
  do F <- np_delete (m_F s) k;
  do dom <- np_delete (m_dom s) k;
  do i <- norm_index (length (m_hvc s)) k;
  do c <- nth_res IndexError (m_hvc s) i;
  do hvc <- hvc_monte_carlo ns dom (m_V s) k_excl;
  Ok (mkMC F dom (m_V s) (fsub (m_hv s) c) hvc).
Fixpoint mc_deletes (ns k_excl : nat) (s : mc) (ks : list Z) : res mc :=
  match ks with [] => Ok s | k :: t => do s' <- mc_delete ns k_excl s k; mc_deletes ns k_excl s' t end.

(** * sms_emoa.py: survival *)
Definition flt (a b : fl) : bool := fle a b && negb (fle b a).
(** [np.argmin]: the first NaN if there is one, else the first minimum; ValueError for an empty array *)
Fixpoint argmin_from (best : nat) (bv : fl) (i : nat) (l : list fl) : nat :=
  match bv with
  | NaN => best
  | _ => match l with
         | [] => best
         | NaN :: _ => i
         | v :: t => if flt v bv then argmin_from i v (S i) t else argmin_from best bv (S i) t
         end
  end.
Definition np_argmin (l : list fl) : res nat := match l with [] => Exn ValueError | v :: t => Ok (argmin_from 0 v 1 t) end.
(** lines 146-149.  [contrib h] is [hv.hvc] after the deletions [h], most recent first; [hv.delete] is
    part of it.  The front loses one element per turn, so its length bounds the number of turns. *)
Fixpoint shrink (fuel : nat) (contrib : list nat -> list fl) (n_survive have : nat) (h : list nat) (front : list nat) : res (list nat) :=
  if (n_survive <? have + length front)%nat then
    match fuel with
    | O => Exn OutOfFuel
    | S f =>
      do k <- np_argmin (contrib h);
      do front' <- np_delete front (Z.of_nat k);
      shrink f contrib n_survive have (k :: h) front'
    end
  else Ok front.
(** lines 120-152.  Individuals are their indices in the population; [contrib q] belongs to front [q].
    The non-dominated sorting of pymoo gives the fronts.  The rank attribute is not modelled. *)
Fixpoint survive_loop (contrib : nat -> list nat -> list fl) (n_survive : nat) (q : nat) (surv : list nat) (fronts : list (list nat)) : res (list nat) :=
  match fronts with
  | [] => Ok surv
  | f :: t =>
    do f' <- (if (n_survive <? length surv + length f)%nat
              then shrink (S (length f)) (contrib q) n_survive (length surv) [] f else Ok f);
    survive_loop contrib n_survive (S q) (surv ++ f') t
  end.
(** lines 101-154; comparing a number with [None] raises TypeError as soon as there is a front *)
Definition survive (contrib : nat -> list nat -> list fl) (n_survive : option nat) (fronts : list (list nat)) : res (list nat) :=
  match n_survive with
  | Some n => survive_loop contrib n 0 [] fronts
  | None => match fronts with [] => Ok [] | _ => Exn TypeError end
  end.

(** * sms_emoa.py 157-196: tournament *)
(** pymoo's [Dominator.get_relation]: 1 if the first dominates, -1 if the second does, 0 otherwise *)
Fixpoint relation_from (val : Z) (a b : list R) : Z :=
  match a, b with
  | x :: a', y :: b' =>
    if rltb x y then (if (val =? -1)%Z then 0%Z else relation_from 1 a' b')
    else if rltb y x then (if (val =? 1)%Z then 0%Z else relation_from (-1) a' b')
    else relation_from val a' b'
  | _, _ => val
  end.
Definition get_relation (a b : list R) : Z := relation_from 0 a b.
Record indiv := mkInd { i_cv : R; i_f : list R }.
(** one turn, lines 166-194; [coin] is the random choice, true for the first *)
Definition tourn1 (pop : list indiv) (coin : bool) (a b : nat) : res nat :=
  do ia <- nth_res IndexError pop a;
  do ib <- nth_res IndexError pop b;
  let rnd := if coin then a else b in
  Ok (if rltb 0 (i_cv ia) || rltb 0 (i_cv ib) then
        (if rltb (i_cv ia) (i_cv ib) then a else if rltb (i_cv ib) (i_cv ia) then b else rnd)
      else
        let rel := get_relation (i_f ia) (i_f ib) in
        if (rel =? 1)%Z then a else if (rel =? -1)%Z then b else rnd).
(** lines 157-196: [P] has one row of contestants per tournament *)
Fixpoint tournament_loop (pop : list indiv) (coins : list bool) (P : list (list nat)) : res (list nat) :=
  match P with
  | [] => Ok []
  | r :: t => match r with
              | [a; b] => do s <- tourn1 pop (hd true coins) a b; do ss <- tournament_loop pop (tl coins) t; Ok (s :: ss)
              | _ => Exn ValueError
              end
  end.

(** * sms_emoa.py 243-257: [_advance].  [Fo a] are the objective values of an individual, [fronts] and [contrib]
    as in [survive], the latter depends on the boundary points of the normalisation (lines 105-108 and 127).
    No individual is infeasible, so pymoo's filter in [Survival.do] keeps all of them. *)
Definition worst (F : list (list R)) : res (list R) :=
  match F with [] => Exn ValueError | f :: t => Ok (fold_left (fun a b => map (fun p => Rmax (fst p) (snd p)) (combine a b)) t f) end.
(** lines 244-249 *)
Definition boundary {A} (normalize : bool) (Fo : A -> list R) (pop : list A) : res (option (list R * list R)) :=
  if normalize then do lo <- ideal (map Fo pop); do hi <- worst (map Fo pop); Ok (Some (lo, map (fun v => v + / 10 ^ 32) hi)) else Ok None.
(** lines 251-257 *)
Definition advance {A} (normalize : bool) (Fo : A -> list R) (fronts : list A -> list (list nat))
    (contrib : option (list R * list R) -> list A -> nat -> list nat -> list fl) (pop_size : nat) (pop : list A) (infills : option (list A)) : res (list A) :=
  do bd <- boundary normalize Fo pop;
  do merged <- match infills with Some i => Ok (pop ++ i) | None => Exn UnboundLocalError end;
  do idx <- survive (contrib bd merged) (Some pop_size) (fronts merged);
  mapM (nth_res IndexError merged) idx.

(** * exact.py 23-70 *)
Section Dynamic.
Context {H C : Type}.
Variable zero_hv : H.
Variable zero_hvc : C.
(** the supplied functions, for the fixed reference point; they may raise *)
Variable func_hv : option (list (list R) -> res H).
Variable func_hvc : option (list (list R) -> res C).
Variable n_dim : nat.
Record dyn := mkDyn { d_F : list (list R); d_hv : option H; d_hvc : option C }.
(** lines 31-35 *)
Definition dyn_init : dyn := mkDyn [] (Some zero_hv) (Some zero_hvc).
Definition opt_call {A} (f : option (list (list R) -> res A)) (F : list (list R)) : res (option A) :=
  match f with Some g => do v <- g F; Ok (Some v) | None => Ok None end.
(** lines 53-70 *)
Definition dyn_calc (F : list (list R)) : res (option H * option C) :=
  do h <- opt_call func_hv F; do c <- opt_call func_hvc F; Ok (h, c).
(** a method call: the state afterwards and the exception, if any *)
Definition dyn_recalc (s : dyn) (F : list (list R)) : dyn * option exn :=
  match dyn_calc F with Ok (h, c) => (mkDyn F h c, None) | Exn e => (mkDyn F (d_hv s) (d_hvc s), Some e) end.
(** lines 40-45; the argument is a matrix with rows of equal length [w] *)
Definition dyn_add (s : dyn) (w : nat) (A : list (list R)) : dyn * option exn :=
  if (w =? n_dim)%nat then dyn_recalc s (d_F s ++ A) else (s, Some AssertionError).
(** lines 47-51 *)
Definition dyn_delete (s : dyn) (k : Z) : dyn * option exn :=
  if (k <? Z.of_nat (length (d_F s)))%Z then
    match np_delete (d_F s) k with Ok F => dyn_recalc s F | Exn e => (s, Some e) end
  else (s, Some AssertionError).
Inductive dop := Add (w : nat) (A : list (list R)) | Delete (k : Z).
Definition dyn_step (s : dyn) (o : dop) : dyn * option exn :=
  match o with Add w A => dyn_add s w A | Delete k => dyn_delete s k end.
(** a sequence of calls; the caller catches exceptions and goes on *)
Fixpoint dyn_run (s : dyn) (os : list dop) : dyn * list (option exn) :=
  match os with [] => (s, []) | o :: t => let (s', e) := dyn_step s o in let (s'', es) := dyn_run s' t in (s'', e :: es) end.
End Dynamic.

(** * moead.py *)
(** lines 43-48; [perc] is [termination.perc] or 1 *)
Definition cv_eps (perc_eps_until : R) (max_cv : option R) (perc : option R) : res R :=
  match max_cv with
  | None => Ok 0
  | Some m =>
    let t := match perc with Some t => t | None => 1 end in
    if reqb perc_eps_until 0 then Exn ZeroDivisionError
    else Ok (Rmax 0 (1 - 1 / perc_eps_until * t) * m)
  end.
(** lines 19-26: [step] is the inherited [next], [fuel] bounds the number of turns *)
Section Next.
Context {A : Type}.
Variable step : A -> A.
Variable has_next is_init : A -> bool.
Variable n_gen : A -> nat.
Fixpoint drain (fuel : nat) (g : nat) (s : A) : res A :=
  if has_next s && (n_gen s =? g)%nat then match fuel with O => Exn OutOfFuel | S f => drain f g (step s) end else Ok s.
Definition next (fuel : nat) (s : A) : res A := if is_init s then drain fuel (n_gen s) s else Ok (step s).
End Next.
(** pymoo's [parameter_less] *)
Definition parameter_less (fmax f cv : R) : R := if rltb 0 cv then fmax + cv else f.
(** lines 50-65: the entries of the neighbourhood [N] that are overwritten.  [FV], [offFV] are the decomposed
    values of the neighbours and of the offspring, [CV] the violations of the neighbours, [cv] that of the
    offspring.  [constrained] is [has_constraints()]. *)
Definition lmax (d : R) (l : list R) : R := fold_right Rmax d l.
Definition replaced (constrained : bool) (eps : R) (N : list nat) (FV offFV CV : list R) (cv : R) : res (list nat) :=
  match FV, offFV with
  | f0 :: _, o0 :: _ =>
    let fmax := Rmax (lmax f0 FV) (lmax o0 offFV) in
    let new := if constrained then map (fun p => parameter_less fmax (fst p) (Rmax (snd p - eps) 0)) (combine FV CV) else FV in
    let offnew := if constrained then map (fun o => parameter_less fmax o (Rmax (cv - eps) 0)) offFV else offFV in
    Ok (map (fun q => fst q) (filter (fun q => rltb (fst (snd q)) (snd (snd q))) (combine N (combine offnew new))))
  | _, _ => Exn ValueError
  end.

(** * problems/_pymoo_factory.py *)
Local Open Scope string_scope.
(** the interpreter state that matters: pymoo's active toolbox and the toolbox bound by every loaded module *)
Record world := mkW { w_toolbox : string; w_modules : string -> option string }.
Definition jax : string := "jax.numpy".
Definition upd (m : string -> option string) (k v : string) : string -> option string :=
  fun x => if String.eqb x k then Some v else m x.
(** lines 18-35 *)
Definition registry : list (string * (string * string)) :=
  [("bnh", ("pymoo.problems.multi.bnh", "BNH")); ("osy", ("pymoo.problems.multi.osy", "OSY"));
   ("srn", ("pymoo.problems.multi.srn", "SRN")); ("tnk", ("pymoo.problems.multi.tnk", "TNK"));
   ("zdt1", ("pymoo.problems.multi.zdt", "ZDT1")); ("zdt2", ("pymoo.problems.multi.zdt", "ZDT2"));
   ("zdt3", ("pymoo.problems.multi.zdt", "ZDT3")); ("zdt4", ("pymoo.problems.multi.zdt", "ZDT4"));
   ("zdt6", ("pymoo.problems.multi.zdt", "ZDT6")); ("dtlz1", ("pymoo.problems.many.dtlz", "DTLZ1"));
   ("dtlz2", ("pymoo.problems.many.dtlz", "DTLZ2")); ("dtlz3", ("pymoo.problems.many.dtlz", "DTLZ3"));
   ("dtlz4", ("pymoo.problems.many.dtlz", "DTLZ4")); ("dtlz5", ("pymoo.problems.many.dtlz", "DTLZ5"));
   ("dtlz6", ("pymoo.problems.many.dtlz", "DTLZ6")); ("dtlz7", ("pymoo.problems.many.dtlz", "DTLZ7"))].
Section Factory.
(** what the environment answers: whether switching to a toolbox fails, what importing a module does to
    the interpreter, whether a class is found, what the constructor and the adapter do *)
Variable act_err : string -> option exn.
Variable import_eff : string -> world -> world * option exn.
Variable class_err : string -> string -> option exn.
Variable build : string -> world -> world * option exn.
(** pymoo.gradient.activate; a failing call changes nothing *)
Definition activate (t : string) (w : world) : world * option exn :=
  match act_err t with Some e => (w, Some e) | None => (mkW t (w_modules w), None) end.
(** lines 43-62: the context manager around a body.  An exception of the final [activate] replaces
    the one of the body. *)
Definition with_jax (body : world -> world * option exn) (w : world) : world * option exn :=
  let prev := w_toolbox w in
  let (w1, e1) := if String.eqb prev jax then (w, None) else activate jax w in
  match e1 with
  | Some e => (w1, Some e)
  | None =>
    let (w2, e2) := body w1 in
    if String.eqb prev jax then (w2, e2)
    else let (w3, e3) := activate prev w2 in match e3 with Some e => (w3, Some e) | None => (w3, e2) end
  end.
(** lines 65-79 *)
Definition import_type (m c : string) (w : world) : world * option exn :=
  match w_modules w m with
  | Some b => if String.eqb b jax then (w, class_err m c) else (w, Some RuntimeError)
  | None => with_jax (fun w1 => let (w2, e) := import_eff m w1 in
                                match e with Some e => (w2, Some e) | None => (w2, class_err m c) end) w
  end.
Fixpoint assoc {A} (k : string) (l : list (string * A)) : option A :=
  match l with [] => None | (k', v) :: t => if String.eqb k k' then Some v else assoc k t end.
(** lines 82-109; [key] is the lower-case name *)
Definition get_pymoo_problem (key : string) (w : world) : world * option exn :=
  match assoc key registry with
  | None => (w, Some ValueError)
  | Some (m, c) =>
    let (w1, e) := import_type m c w in
    match e with Some e => (w1, Some e) | None => build key w1 end
  end.
Fixpoint get_problems (keys : list string) (w : world) : world * list (option exn) :=
  match keys with
  | [] => (w, [])
  | k :: t => let (w1, e) := get_pymoo_problem k w in let (w2, es) := get_problems t w1 in (w2, e :: es)
  end.
End Factory.
