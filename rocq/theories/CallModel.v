(** Model of the binding of the arguments of a call to the parameters of a constructor, and the calls of the
    constructors of the optimizers and of MMD in /repo/examples and /repo/scripts, transcribed from the texts (each
    call carries its file and line; calls with a dictionary of keywords are not included). *)
From Coq Require Import List Arith String Bool.
From Verif Require Import Exn.
Import ListNotations.
Open Scope string_scope.

(** a constructor: parameters without default, parameters with default, and whether there is a [**kwargs] *)
Record sig : Type := mkSig { s_req : list string; s_opt : list string; s_kw : bool }.
(** what a parameter is bound to: a positional argument, the keyword argument, or its default *)
Inductive source : Type := Positional (i : nat) | Keyword | Default.
Definition mem (x : string) (l : list string) : bool := existsb (String.eqb x) l.

(** the rules of Python for a call with [npos] positional and the keyword arguments [kws]; the class of the
    exception is TypeError in each case; the extra keywords go to [**kwargs] *)
Definition source_of (npos : nat) (kws : list string) (i : nat) (x : string) : source :=
  if Nat.ltb i npos then Positional i else if mem x kws then Keyword else Default.
Fixpoint sources (npos : nat) (kws : list string) (i : nat) (ps : list string) : list (string * source) :=
  match ps with [] => [] | x :: ps' => (x, source_of npos kws i x) :: sources npos kws (S i) ps' end.
Definition bind_call (s : sig) (npos : nat) (kws : list string) : res (list (string * source) * list string) :=
  let ps := (s_req s ++ s_opt s)%list in
  if Nat.ltb (List.length ps) npos then Exn TypeError
  else if existsb (fun k => mem k (firstn npos ps)) kws then Exn TypeError
  else let extra := filter (fun k => negb (mem k ps)) kws in
  if negb (s_kw s) && negb (match extra with [] => true | _ => false end) then Exn TypeError
  else if existsb (fun x => negb (mem x kws)) (skipn npos (s_req s)) then Exn TypeError
  else Ok (sources npos kws 0 ps, extra).

(** /repo/hvd/newton.py 36-60 *)
Definition sig_HVN : sig := mkSig ["n_var"; "n_obj"; "func"; "jac"; "hessian"; "ref"; "xl"; "xu"] ["N"; "h"; "h_jac"; "h_hessian"; "g"; "g_jac"; "g_hessian"; "X0"; "max_iters"; "xtol"; "verbose"; "metrics"; "preconditioning"; "limit_max_step_size"] false.
(** /repo/hvd/newton.py 331-355 *)
Definition sig_DpN : sig := mkSig ["dim"; "n_obj"; "func"; "jac"; "hessian"; "ref"; "xl"; "xu"] ["type"; "N"; "h"; "h_jac"; "h_hessian"; "g"; "g_jac"; "g_hessian"; "x0"; "max_iters"; "xtol"; "verbose"; "metrics"; "preconditioning"] false.
(** /repo/hvd/mmd.py 41-52 *)
Definition sig_MMD : sig := mkSig ["n_var"; "n_obj"; "ref"] ["func"; "jac"; "hessian"; "kernel"; "theta"] false.
(** /repo/hvd/mmd.py 255-267 *)
Definition sig_MMDMatching : sig := mkSig ["n_var"; "n_obj"; "ref"] ["func"; "jac"; "hessian"; "kernel"; "theta"; "beta"] false.
(** /repo/hvd/mmd_newton.py 38-61 *)
Definition sig_MMDNewton : sig := mkSig ["n_var"; "n_obj"; "func"; "jac"; "hessian"; "ref"; "xl"; "xu"] ["N"; "h"; "h_jac"; "g"; "g_jac"; "X0"; "max_iters"; "xtol"; "verbose"; "metrics"; "preconditioning"; "matching"] true.

(** mmd_newton.py 100-106: the keywords left over are passed on to [MMDMatching] with six positional arguments and [beta],
    or to [MMD] with six positional arguments *)
Definition call_MMDNewton (matching : bool) (npos : nat) (kws : list string) : res unit :=
  do b <- bind_call sig_MMDNewton npos kws;
  if matching then do _ <- bind_call sig_MMDMatching 6 ("beta" :: snd b); Ok tt
  else do _ <- bind_call sig_MMD 6 (snd b); Ok tt.

(** a call: file, line, number of positional arguments, keywords *)
Record call : Type := mkCall { c_file : string; c_line : nat; c_pos : nat; c_kws : list string }.
(** the calls of [HVN] in /repo/examples and /repo/scripts *)
Definition calls_HVN : list call := [
  mkCall "examples/HVN/2D_example.py" 76 0 ["n_var"; "n_obj"; "ref"; "func"; "jac"; "hessian"; "h"; "h_jac"; "h_hessian"; "N"; "X0"; "xl"; "xu"; "max_iters"; "verbose"; "preconditioning"; "limit_max_step_size"];
  mkCall "examples/HVN/3D_EqDTLZ.py" 69 0 ["n_var"; "n_obj"; "ref"; "func"; "jac"; "hessian"; "h"; "h_jac"; "h_hessian"; "N"; "xl"; "xu"; "X0"; "max_iters"; "verbose"];
  mkCall "examples/HVN/3D_example1.py" 95 0 ["n_var"; "n_obj"; "ref"; "func"; "jac"; "hessian"; "h"; "h_jac"; "h_hessian"; "N"; "X0"; "xl"; "xu"; "max_iters"; "verbose"; "preconditioning"];
  mkCall "examples/HVN/3D_example2.py" 116 0 ["n_var"; "n_obj"; "ref"; "func"; "jac"; "hessian"; "g"; "g_jac"; "g_hessian"; "N"; "X0"; "xl"; "xu"; "max_iters"; "verbose"; "preconditioning"];
  mkCall "examples/HVN/EqCon1.py" 78 0 ["n_var"; "n_obj"; "ref"; "func"; "jac"; "hessian"; "h"; "h_jac"; "h_hessian"; "N"; "X0"; "xl"; "xu"; "max_iters"; "verbose"; "preconditioning"];
  mkCall "examples/HVN/IDTLZ2_example.py" 37 0 ["n_var"; "n_obj"; "ref"; "func"; "jac"; "hessian"; "N"; "xl"; "xu"; "X0"; "max_iters"; "verbose"; "preconditioning"];
  mkCall "examples/HVN/concave_example.py" 60 0 ["n_var"; "n_obj"; "ref"; "func"; "jac"; "hessian"; "g"; "g_jac"; "g_hessian"; "N"; "X0"; "xl"; "xu"; "max_iters"; "verbose"; "preconditioning"];
  mkCall "examples/HVN/conv3_example.py" 37 0 ["n_var"; "n_obj"; "ref"; "func"; "jac"; "hessian"; "N"; "xl"; "xu"; "X0"; "max_iters"; "verbose"; "preconditioning"; "limit_max_step_size"];
  mkCall "examples/HVN/convex_example.py" 61 0 ["n_var"; "n_obj"; "ref"; "func"; "jac"; "hessian"; "g"; "g_jac"; "g_hessian"; "N"; "X0"; "xl"; "xu"; "max_iters"; "verbose"; "preconditioning"];
  mkCall "examples/HVN/dent_example.py" 41 0 ["n_var"; "n_obj"; "ref"; "func"; "jac"; "hessian"; "N"; "X0"; "xl"; "xu"; "max_iters"; "verbose"; "preconditioning"];
  mkCall "examples/HVN/disconnected_example.py" 37 0 ["n_var"; "n_obj"; "ref"; "func"; "jac"; "hessian"; "h"; "h_jac"; "h_hessian"; "g"; "g_jac"; "g_hessian"; "N"; "X0"; "xl"; "xu"; "max_iters"; "verbose"; "preconditioning"];
  mkCall "examples/HVSS/3D_example.py" 69 0 ["n_var"; "n_obj"; "ref"; "func"; "jac"; "hessian"; "h"; "h_jac"; "h_hessian"; "g"; "g_jac"; "g_hessian"; "N"; "X0"; "xl"; "xu"; "max_iters"; "verbose"; "preconditioning"];
  mkCall "examples/HVSS/Dent/example.py" 61 0 ["n_var"; "n_obj"; "ref"; "func"; "jac"; "hessian"; "h"; "h_jac"; "h_hessian"; "N"; "X0"; "xl"; "xu"; "max_iters"; "verbose"; "preconditioning"];
  mkCall "examples/HVSS/TwoOnOne/example.py" 95 0 ["n_var"; "n_obj"; "ref"; "func"; "jac"; "hessian"; "h"; "h_jac"; "h_hessian"; "N"; "X0"; "xl"; "xu"; "max_iters"; "verbose"; "preconditioning"];
  mkCall "examples/HVSS/TwoOnOne/example_implicit.py" 54 0 ["n_var"; "n_obj"; "ref"; "func"; "jac"; "hessian"; "N"; "X0"; "xl"; "xu"; "max_iters"; "verbose"; "preconditioning"];
  mkCall "examples/HVSS/TwoOnOne/example_implicit.py" 71 0 ["n_var"; "n_obj"; "ref"; "func"; "jac"; "hessian"; "N"; "X0"; "xl"; "xu"; "max_iters"; "verbose"; "preconditioning"];
  mkCall "examples/HVSS/TwoOnOne/example_individual.py" 70 0 ["n_var"; "n_obj"; "ref"; "func"; "jac"; "hessian"; "h"; "h_jac"; "h_hessian"; "N"; "X0"; "xl"; "xu"; "max_iters"; "verbose"; "preconditioning"];
  mkCall "examples/HVSS/TwoOnOne/example_individual.py" 100 0 ["n_var"; "n_obj"; "ref"; "func"; "jac"; "hessian"; "h"; "h_jac"; "h_hessian"; "N"; "X0"; "xl"; "xu"; "max_iters"; "verbose"; "preconditioning"];
  mkCall "examples/HVSS/ZDT1/example.py" 66 0 ["n_var"; "n_obj"; "ref"; "func"; "jac"; "hessian"; "h"; "h_jac"; "h_hessian"; "N"; "X0"; "xl"; "xu"; "max_iters"; "verbose"; "preconditioning"];
  mkCall "examples/HVSS/ZDT1/example_implicit.py" 34 0 ["n_var"; "n_obj"; "ref"; "func"; "jac"; "hessian"; "N"; "X0"; "xl"; "xu"; "max_iters"; "verbose"; "preconditioning"];
  mkCall "examples/HVSS/ZDT2/example.py" 64 0 ["n_var"; "n_obj"; "ref"; "func"; "jac"; "hessian"; "h"; "h_jac"; "h_hessian"; "N"; "X0"; "xl"; "xu"; "max_iters"; "verbose"; "preconditioning"];
  mkCall "examples/HVSS/components.py" 103 0 ["n_var"; "n_obj"; "ref"; "func"; "jac"; "hessian"; "N"; "X0"; "xl"; "xu"; "max_iters"; "verbose"; "preconditioning"];
  mkCall "examples/HVSS/run.py" 52 0 ["n_var"; "n_obj"; "ref"; "func"; "jac"; "hessian"; "N"; "X0"; "xl"; "xu"; "max_iters"; "verbose"; "preconditioning"];
  mkCall "examples/HVSS/run3D.py" 87 0 ["n_var"; "n_obj"; "ref"; "func"; "jac"; "hessian"; "h"; "h_jac"; "h_hessian"; "g"; "g_jac"; "g_hessian"; "N"; "X0"; "xl"; "xu"; "max_iters"; "verbose"; "preconditioning"];
  mkCall "examples/HVSS/run3D_example.py" 152 0 ["n_var"; "n_obj"; "ref"; "func"; "jac"; "hessian"; "h"; "h_jac"; "h_hessian"; "g"; "g_jac"; "g_hessian"; "N"; "X0"; "xl"; "xu"; "max_iters"; "verbose"; "preconditioning"];
  mkCall "examples/HVSS/test.py" 54 0 ["n_var"; "n_obj"; "ref"; "func"; "jac"; "hessian"; "N"; "X0"; "xl"; "xu"; "max_iters"; "verbose"; "preconditioning"];
  mkCall "examples/subset_selection/Dent/example.py" 61 0 ["n_var"; "n_obj"; "ref"; "func"; "jac"; "hessian"; "h"; "h_jac"; "h_hessian"; "N"; "X0"; "xl"; "xu"; "max_iters"; "verbose"; "preconditioning"];
  mkCall "examples/subset_selection/TwoOnOne/example.py" 95 0 ["n_var"; "n_obj"; "ref"; "func"; "jac"; "hessian"; "h"; "h_jac"; "h_hessian"; "N"; "X0"; "xl"; "xu"; "max_iters"; "verbose"; "preconditioning"];
  mkCall "examples/subset_selection/TwoOnOne/example_implicit.py" 54 0 ["n_var"; "n_obj"; "ref"; "func"; "jac"; "hessian"; "N"; "X0"; "xl"; "xu"; "max_iters"; "verbose"; "preconditioning"];
  mkCall "examples/subset_selection/TwoOnOne/example_implicit.py" 71 0 ["n_var"; "n_obj"; "ref"; "func"; "jac"; "hessian"; "N"; "X0"; "xl"; "xu"; "max_iters"; "verbose"; "preconditioning"];
  mkCall "examples/subset_selection/TwoOnOne/example_individual.py" 70 0 ["n_var"; "n_obj"; "ref"; "func"; "jac"; "hessian"; "h"; "h_jac"; "h_hessian"; "N"; "X0"; "xl"; "xu"; "max_iters"; "verbose"; "preconditioning"];
  mkCall "examples/subset_selection/TwoOnOne/example_individual.py" 100 0 ["n_var"; "n_obj"; "ref"; "func"; "jac"; "hessian"; "h"; "h_jac"; "h_hessian"; "N"; "X0"; "xl"; "xu"; "max_iters"; "verbose"; "preconditioning"];
  mkCall "examples/subset_selection/ZDT1/example.py" 66 0 ["n_var"; "n_obj"; "ref"; "func"; "jac"; "hessian"; "h"; "h_jac"; "h_hessian"; "N"; "X0"; "xl"; "xu"; "max_iters"; "verbose"; "preconditioning"];
  mkCall "examples/subset_selection/ZDT1/example_implicit.py" 34 0 ["n_var"; "n_obj"; "ref"; "func"; "jac"; "hessian"; "N"; "X0"; "xl"; "xu"; "max_iters"; "verbose"; "preconditioning"];
  mkCall "examples/subset_selection/ZDT2/example.py" 64 0 ["n_var"; "n_obj"; "ref"; "func"; "jac"; "hessian"; "h"; "h_jac"; "h_hessian"; "N"; "X0"; "xl"; "xu"; "max_iters"; "verbose"; "preconditioning"];
  mkCall "examples/subset_selection/run.py" 52 0 ["n_var"; "n_obj"; "ref"; "func"; "jac"; "hessian"; "N"; "X0"; "xl"; "xu"; "max_iters"; "verbose"; "preconditioning"];
  mkCall "scripts/benchmark_HVN.py" 27 0 ["n_var"; "n_obj"; "ref"; "func"; "jac"; "hessian"; "h"; "h_jac"; "h_hessian"; "N"; "xl"; "xu"; "minimization"; "X0"; "max_iters"; "verbose"; "problem_name"]].
(** the calls of [DpN] in /repo/examples and /repo/scripts *)
Definition calls_DpN : list call := [
  mkCall "examples/DpN/2D_CF2.py" 58 0 ["dim"; "n_obj"; "ref"; "func"; "jac"; "hessian"; "g"; "g_jac"; "N"; "X0"; "xl"; "xu"; "max_iters"; "type"; "verbose"];
  mkCall "examples/DpN/2D_example_concave.py" 52 0 ["dim"; "n_obj"; "ref"; "func"; "jac"; "hessian"; "N"; "x0"; "xl"; "xu"; "max_iters"; "type"; "verbose"; "preconditioning"];
  mkCall "examples/DpN/2D_example_convex.py" 88 0 ["dim"; "n_obj"; "ref"; "func"; "jac"; "hessian"; "h"; "h_jac"; "h_hessian"; "N"; "x0"; "xl"; "xu"; "max_iters"; "type"; "verbose"];
  mkCall "examples/DpN/3D_EqDTLZ.py" 59 0 ["dim"; "n_obj"; "ref"; "func"; "jac"; "hessian"; "h"; "h_jac"; "N"; "xl"; "xu"; "X0"; "max_iters"; "verbose"];
  mkCall "examples/DpN/3D_example1.py" 86 0 ["dim"; "n_obj"; "ref"; "func"; "jac"; "hessian"; "h"; "h_jac"; "N"; "x0"; "xl"; "xu"; "max_iters"; "type"; "verbose"];
  mkCall "examples/DpN/3D_example2.py" 113 0 ["dim"; "n_obj"; "ref"; "func"; "jac"; "hessian"; "g"; "g_jac"; "N"; "x0"; "xl"; "xu"; "max_iters"; "type"; "verbose"];
  mkCall "examples/DpN/EqCon1.py" 114 0 ["dim"; "n_obj"; "ref"; "func"; "jac"; "hessian"; "h"; "h_jac"; "h_hessian"; "N"; "x0"; "xl"; "xu"; "max_iters"; "metrics"; "type"; "verbose"];
  mkCall "examples/DpN/IDTLZ2_example.py" 40 0 ["dim"; "n_obj"; "ref"; "func"; "jac"; "hessian"; "N"; "x0"; "xl"; "xu"; "max_iters"; "verbose"; "metrics"; "type"; "preconditioning"];
  mkCall "examples/DpN/MOP1_example.py" 76 0 ["dim"; "n_obj"; "ref"; "func"; "jac"; "hessian"; "N"; "x0"; "xl"; "xu"; "max_iters"; "type"; "pareto_front"; "verbose"];
  mkCall "examples/DpN/ZDT_example.py" 70 0 ["dim"; "n_obj"; "ref"; "func"; "jac"; "hessian"; "g"; "g_jac"; "N"; "x0"; "xl"; "xu"; "max_iters"; "type"; "verbose"];
  mkCall "examples/DpN/conv3_degenerate_example.py" 41 0 ["dim"; "n_obj"; "ref"; "func"; "jac"; "hessian"; "N"; "x0"; "xl"; "xu"; "max_iters"; "verbose"; "preconditioning"; "metrics"; "type"];
  mkCall "examples/DpN/conv3_example.py" 41 0 ["dim"; "n_obj"; "ref"; "func"; "jac"; "hessian"; "N"; "x0"; "xl"; "xu"; "max_iters"; "verbose"; "preconditioning"; "metrics"; "type"];
  mkCall "examples/DpN/dent_example.py" 75 0 ["dim"; "n_obj"; "ref"; "func"; "jac"; "hessian"; "N"; "x0"; "xl"; "xu"; "max_iters"; "metrics"; "type"; "verbose"; "preconditioning"];
  mkCall "examples/DpN/example_CONV3.py" 32 0 ["dim"; "n_obj"; "ref"; "func"; "jac"; "hessian"; "N"; "X0"; "xl"; "xu"; "max_iters"; "type"; "verbose"; "pareto_front"];
  mkCall "examples/DpN/example_DTLZ1.py" 42 0 ["dim"; "n_obj"; "ref"; "func"; "jac"; "hessian"; "g"; "g_jac"; "N"; "X0"; "xl"; "xu"; "max_iters"; "type"; "verbose"; "pareto_front"; "Y_label"];
  mkCall "examples/DpN/example_DTLZ7.py" 34 0 ["dim"; "n_obj"; "ref"; "func"; "jac"; "hessian"; "g"; "g_jac"; "N"; "X0"; "xl"; "xu"; "max_iters"; "type"; "verbose"; "pareto_front"; "Y_label"];
  mkCall "examples/DpN/example_ZDT1.py" 26 0 ["dim"; "n_obj"; "ref"; "func"; "jac"; "hessian"; "g"; "g_jac"; "N"; "x0"; "xl"; "xu"; "max_iters"; "type"; "verbose"; "eta"; "pareto_front"];
  mkCall "examples/DpN/example_ZDT3.py" 36 0 ["dim"; "n_obj"; "ref"; "func"; "jac"; "hessian"; "g"; "g_jac"; "N"; "X0"; "xl"; "xu"; "max_iters"; "type"; "verbose"; "pareto_front"; "eta"; "Y_label"];
  mkCall "examples/DpN/example_ZDT6.py" 49 0 ["dim"; "n_obj"; "ref"; "func"; "jac"; "hessian"; "g"; "g_jac"; "N"; "X0"; "xl"; "xu"; "max_iters"; "type"; "verbose"; "pareto_front"; "eta"; "Y_label"];
  mkCall "examples/MMD/MOP1.py" 101 0 ["dim"; "n_obj"; "ref"; "func"; "jac"; "hessian"; "N"; "x0"; "xl"; "xu"; "max_iters"; "verbose"; "type"; "metrics"];
  mkCall "examples/MMD/example_DTLZ1.py" 86 0 ["dim"; "n_obj"; "ref"; "func"; "jac"; "hessian"; "g"; "g_jac"; "N"; "x0"; "xl"; "xu"; "max_iters"; "verbose"; "type"; "metrics"];
  mkCall "examples/MMD/example_DTLZ1.py" 109 0 ["dim"; "n_obj"; "ref"; "func"; "jac"; "hessian"; "g"; "g_jac"; "N"; "x0"; "xl"; "xu"; "max_iters"; "verbose"; "type"; "metrics"];
  mkCall "examples/MMD/example_DTLZ1_degeneration.py" 80 0 ["dim"; "n_obj"; "ref"; "func"; "jac"; "hessian"; "g"; "g_jac"; "N"; "x0"; "xl"; "xu"; "max_iters"; "verbose"; "type"; "metrics"];
  mkCall "examples/MMD/example_DTLZ1_degeneration.py" 103 0 ["dim"; "n_obj"; "ref"; "func"; "jac"; "hessian"; "g"; "g_jac"; "N"; "x0"; "xl"; "xu"; "max_iters"; "verbose"; "type"; "metrics"];
  mkCall "examples/MMD/example_DTLZ1_gap.py" 127 0 ["dim"; "n_obj"; "ref"; "func"; "jac"; "hessian"; "g"; "g_jac"; "N"; "x0"; "xl"; "xu"; "max_iters"; "verbose"; "type"; "metrics"];
  mkCall "examples/MMD/example_DTLZ1_gap.py" 150 0 ["dim"; "n_obj"; "ref"; "func"; "jac"; "hessian"; "g"; "g_jac"; "N"; "x0"; "xl"; "xu"; "max_iters"; "verbose"; "type"; "metrics"];
  mkCall "examples/MMD/example_ZDT.py" 81 0 ["dim"; "n_obj"; "ref"; "func"; "jac"; "hessian"; "g"; "g_jac"; "N"; "x0"; "xl"; "xu"; "max_iters"; "verbose"; "type"; "eta"; "Y_label"; "pareto_front"];
  mkCall "scripts/benchmark_CF.py" 36 0 ["dim"; "n_obj"; "ref"; "func"; "jac"; "hessian"; "g"; "g_jac"; "N"; "X0"; "xl"; "xu"; "max_iters"; "type"; "verbose"; "pareto_front"; "eta"; "Y_label"];
  mkCall "scripts/benchmark_CONV4.py" 44 0 ["dim"; "n_obj"; "ref"; "func"; "jac"; "hessian"; "g"; "g_jac"; "N"; "X0"; "xl"; "xu"; "max_iters"; "type"; "verbose"; "pareto_front"; "eta"; "Y_label"];
  mkCall "scripts/benchmark_DTLZ.py" 62 0 ["dim"; "n_obj"; "ref"; "func"; "jac"; "hessian"; "g"; "g_jac"; "N"; "x0"; "xl"; "xu"; "max_iters"; "type"; "verbose"; "pareto_front"; "eta"; "Y_label"];
  mkCall "scripts/benchmark_DpN.py" 55 0 ["dim"; "n_obj"; "ref"; "func"; "jac"; "hessian"; "g"; "g_jac"; "N"; "x0"; "xl"; "xu"; "max_iters"; "type"; "verbose"; "metrics"; "preconditioning"];
  mkCall "scripts/benchmark_DpN2.py" 82 0 ["dim"; "n_obj"; "ref"; "func"; "jac"; "hessian"; "g"; "g_jac"; "N"; "x0"; "xl"; "xu"; "max_iters"; "type"; "verbose"; "metrics"; "preconditioning"]].
(** the calls of [MMD] in /repo/examples and /repo/scripts *)
Definition calls_MMD : list call := [
  mkCall "examples/MMD/DTLZ1.py" 51 2 ["ref"; "func"; "jac"; "kernel"; "theta"];
  mkCall "examples/MMD/DTLZ1.py" 56 2 ["ref"; "func"; "jac"; "kernel"; "theta"];
  mkCall "examples/MMD/MOP1.py" 79 2 ["ref"; "func"; "theta"];
  mkCall "examples/MMD/MOP1.py" 77 2 ["ref"; "func"; "theta"];
  mkCall "examples/MMD/MOP1_default_kernel_parameter.py" 84 2 ["ref"; "func"; "jac"; "kernel"; "theta"];
  mkCall "examples/MMD/MOP1_extreme.py" 97 2 ["ref"; "func"; "jac"; "kernel"; "theta"];
  mkCall "examples/MMD/MOP1_landscape.py" 52 2 ["ref"; "func"; "kernel"; "theta"];
  mkCall "examples/MMD/MOP1_nonuniform_ref.py" 63 2 ["ref"; "func"; "jac"; "hessian"; "kernel"; "theta"];
  mkCall "examples/MMD/MOP1_nonuniform_ref.py" 69 2 ["ref"; "func"; "kernel"; "theta"];
  mkCall "examples/MMD/MOP1_test_single_point.py" 63 2 ["ref"; "func"; "jac"; "kernel"; "theta"];
  mkCall "examples/MMD/MOP1_test_single_point.py" 69 2 ["ref"; "func"; "jac"; "kernel"; "theta"];
  mkCall "examples/MMD/example_DTLZ1.py" 51 0 ["n_var"; "n_obj"; "ref"; "theta"];
  mkCall "examples/MMD/example_DTLZ1_degeneration.py" 53 0 ["n_var"; "n_obj"; "ref"; "theta"];
  mkCall "examples/MMD/example_DTLZ1_gap.py" 68 0 ["n_var"; "n_obj"; "ref"; "theta"];
  mkCall "examples/MMD/set_theta.py" 57 0 ["ref"; "theta"];
  mkCall "examples/MMD/set_theta.py" 48 0 ["ref"; "theta"];
  mkCall "scripts/MMD_theta.py" 70 0 ["n_var"; "n_obj"; "ref"; "func"; "jac"; "hessian"; "theta"; "kernel"];
  mkCall "scripts/benchmark_MMD.py" 87 0 ["n_var"; "n_obj"; "ref"; "theta"; "kernel"];
  mkCall "scripts/benchmark_MMD_boostrap.py" 88 0 ["n_var"; "n_obj"; "ref"; "theta"; "kernel"]].
(** the calls of [MMDNewton] in /repo/examples and /repo/scripts *)
Definition calls_MMDNewton : list call := [
  mkCall "examples/MMD/MOP1.py" 80 0 ["n_var"; "n_obj"; "ref"; "func"; "jac"; "hessian"; "N"; "X0"; "xl"; "xu"; "max_iters"; "verbose"; "metrics"; "preconditioning"; "matching"; "theta"];
  mkCall "examples/MMD/example_DTLZ1.py" 52 0 ["n_var"; "n_obj"; "ref"; "func"; "jac"; "hessian"; "g"; "g_jac"; "N"; "X0"; "xl"; "xu"; "max_iters"; "verbose"; "metrics"; "preconditioning"];
  mkCall "examples/MMD/example_DTLZ1_degeneration.py" 54 0 ["n_var"; "n_obj"; "ref"; "func"; "jac"; "hessian"; "g"; "g_jac"; "N"; "X0"; "xl"; "xu"; "max_iters"; "verbose"; "metrics"; "preconditioning"];
  mkCall "examples/MMD/example_DTLZ1_gap.py" 69 0 ["n_var"; "n_obj"; "ref"; "func"; "jac"; "hessian"; "g"; "g_jac"; "N"; "X0"; "xl"; "xu"; "max_iters"; "verbose"; "metrics"; "preconditioning"];
  mkCall "examples/MMD/example_DTLZ1_gap.py" 94 0 ["n_var"; "n_obj"; "ref"; "func"; "jac"; "hessian"; "g"; "g_jac"; "N"; "X0"; "xl"; "xu"; "max_iters"; "verbose"; "metrics"; "preconditioning"];
  mkCall "examples/MMD/example_ZDT.py" 61 0 ["n_var"; "n_obj"; "ref"; "func"; "jac"; "hessian"; "g"; "g_jac"; "N"; "X0"; "xl"; "xu"; "max_iters"; "verbose"; "metrics"; "preconditioning"];
  mkCall "scripts/benchmark_MMD.py" 99 0 ["n_var"; "n_obj"; "ref"; "func"; "jac"; "hessian"; "g"; "g_jac"; "N"; "X0"; "xl"; "xu"; "max_iters"; "verbose"; "metrics"; "matching"; "preconditioning"; "theta"; "kernel"];
  mkCall "scripts/benchmark_MMD_boostrap.py" 100 0 ["n_var"; "n_obj"; "ref"; "func"; "jac"; "hessian"; "g"; "g_jac"; "N"; "X0"; "xl"; "xu"; "max_iters"; "verbose"; "metrics"; "matching"; "preconditioning"; "theta"; "kernel"]].
